(** * Reading and writing files: the final statements (C52-C54, C72, C73) *)
From Coq Require Import Ascii.
From Verif Require Import Py Spec PyFacts SpecFacts ContextModel ContextSpec ContextOps ContextFacts ContextInit
  ContextFinal LatticeSpec LatticeModel StrModel StrSpec StrFacts FileModel CxtFileModel FileSpec FileFacts CxtFileFacts
  TxtFileFacts DotModel DotSpec DotFacts Properties_Context.

(** ** C52: cxt files *)
(** [ev k] is Python's [eval] at the moment the k-th name is read. *)
Theorem C52_round_trip ev c : good c →
  (∀ k x, (objs c ++ atts c) !! k = Some x → readable ev k x) →
  ∃ s d, write_cxt c = Ok s ∧ read_cxt ev s = Ok d ∧ good d ∧ objs d = objs c ∧ atts d = atts c ∧ abs d = abs c.
Proof. exact (cxt_round_trip_abs ev c). Qed.
Print Assumptions C52_round_trip.
(** An evaluator that knows the integer literals and no variable. *)
Definition lit (k : nat) (s : string) : res name := match py_int s with Ok z => Ok (NInt z) | Err _ => Err NameError end.
Example C52_case : (∀ k x, (objs ex ++ atts ex) !! k = Some x → readable lit k x) ∧
  write_cxt ex = Ok ("B" ++ nl ++ nl ++ "4" ++ nl ++ "3" ++ nl ++ nl ++ "1" ++ nl ++ "2" ++ nl ++ "3" ++ nl ++ "4" ++ nl ++
    "a" ++ nl ++ "b" ++ nl ++ "c" ++ nl ++ "XX." ++ nl ++ "X.X" ++ nl ++ "X.." ++ nl ++ "..." ++ nl)%string.
Proof.
  split; [|reflexivity]. intros k x Hk. assert (x ∈ [o1; o2; o3; o4; sa; sb; sc]) as Hx by by eapply elem_of_list_lookup_2.
  clear Hk. repeat (apply elem_of_cons in Hx as [->|Hx]; [split; [first [by left|right; split; [done|by left]]|by split]|]).
  by apply elem_of_nil in Hx.
Qed.
(** A string that looks like a number comes back as a number. *)
Definition ex5 : context := get_ok empty_cxt (mk_context [[true]] None [NStr "5"] [sa]).
Theorem C52_digits_refuted : ∃ c s d, good c ∧ write_cxt c = Ok s ∧ read_cxt lit s = Ok d ∧ objs d ≠ objs c.
Proof.
  exists ex5, (get_ok "" (write_cxt ex5)), (get_ok empty_cxt (read_cxt lit (get_ok "" (write_cxt ex5)))).
  split; [|split; [by apply get_ok_eq|split; [by apply get_ok_eq; vm_compute|dec]]].
  eapply (mk_context_good [[true]] None [NStr "5"] [sa]); [reflexivity|by apply (bool_decide_unpack _)..|done].
Qed.
Print Assumptions C52_digits_refuted.
(** A name with a line break is cut. *)
Definition ex6 : context := get_ok empty_cxt (mk_context [[true]] None [NStr ("x" ++ nl ++ "y")] [sa]).
Theorem C52_line_break_refuted : ∃ c s d, good c ∧ write_cxt c = Ok s ∧ read_cxt lit s = Ok d ∧ objs d ≠ objs c.
Proof.
  exists ex6, (get_ok "" (write_cxt ex6)), (get_ok empty_cxt (read_cxt lit (get_ok "" (write_cxt ex6)))).
  split; [|split; [by apply get_ok_eq|split; [by apply get_ok_eq; vm_compute|dec]]].
  eapply (mk_context_good [[true]] None [NStr ("x" ++ nl ++ "y")] [sa]); [reflexivity|by apply (bool_decide_unpack _)..|done].
Qed.
Print Assumptions C52_line_break_refuted.

(** Windows and old Macintosh line ends make no difference. *)
Theorem C52_line_ends ev s : has_ch cr s = false →
  read_cxt ev (with_ends crlf s) = read_cxt ev s ∧ read_cxt ev (with_ends cr1 s) = read_cxt ev s.
Proof. exact (read_cxt_ends ev s). Qed.
Print Assumptions C52_line_ends.
(** Counts that are not positive, also negative ones, are read as 0. *)
Theorem C52_counts ev (n k : Z) ls : (n ≤ 0)%Z → (k ≤ 0)%Z → (∀ x, x ∈ ls → one_line x) →
  read_cxt ev (sconcat (map (λ x, x ++ nl)%string ("B" :: "" :: pretty n :: pretty k :: "" :: ls)%list)) = mk_context [] None [] [].
Proof. exact (read_cxt_counts ev n k ls). Qed.
Print Assumptions C52_counts.
Example C52_case_counts : sconcat (map (λ x, x ++ nl)%string ("B" :: "" :: pretty (-2)%Z :: pretty 0%Z :: "" :: [])%list) =
  ("B" ++ nl ++ nl ++ "-2" ++ nl ++ "0" ++ nl ++ nl)%string ∧ with_ends crlf ("B" ++ nl) = String "B" crlf.
Proof. split; reflexivity. Qed.

(** ** C53: uwrite_cxt and uread_cxt *)
Theorem C53_uwrite c : good c →
  ((∀ x, x ∈ objs c ++ atts c → is_str x = true) → uwrite_cxt c = write_cxt c) ∧
  ((∃ z, NInt z ∈ objs c ++ atts c) → uwrite_cxt c = Err TypeError).
Proof. exact (uwrite_cxt_spec c). Qed.
Print Assumptions C53_uwrite.
Theorem C53_uread c s : good c → write_cxt c = Ok s → (objs c ≠ [] ∨ atts c ≠ []) →
  (∀ x, x ∈ objs c ++ atts c → one_line (pystr x)) → uread_cxt s = Err TypeError.
Proof. exact (uread_written c s). Qed.
Print Assumptions C53_uread.
(** On no file at all does it return a context with a name in it. *)
Theorem C53_uread_empty s c : uread_cxt s = Ok c → objs c = [] ∧ atts c = [].
Proof. exact (uread_cxt_spec s c). Qed.
Print Assumptions C53_uread_empty.
Example C53_case : uread_cxt (get_ok "" (write_cxt ex)) = Err TypeError ∧ uwrite_cxt ex = Err TypeError ∧
  is_ok (uwrite_cxt ex5) = true ∧ is_ok (uread_cxt ("B" ++ nl ++ nl ++ "0" ++ nl ++ "0" ++ nl)) = true ∧
  uread_cxt "" = Err AssertionError.
Proof. repeat split; vm_compute; reflexivity. Qed.

(** ** C54: read_txt_with_names *)
Theorem C54_reads ats rows : rows ≠ [] → ats ≠ [""%string] →
  (∀ a, a ∈ ats → plain a ∧ strip a = a) →
  (∀ o l, (o, l) ∈ rows → plain o ∧ o ≠ "0"%string ∧ o ≠ "1"%string ∧ length l = length ats ∧ (o ≠ ""%string ∨ ats ≠ [])) →
  NoDup ats → NoDup (map fst rows) →
  ∃ c, read_txt_with_names (txt_file ats rows) = Ok c ∧ good c ∧ objs c = map (λ r, NStr r.1) rows ∧
    atts c = map NStr ats ∧ np c = map snd rows.
Proof. exact (read_txt_names_ok ats rows). Qed.
Print Assumptions C54_reads.
(** A tab at the end of the line of attributes does no harm. *)
Theorem C54_final_tab ats rows : rows ≠ [] → ats ≠ [] →
  (∀ a, a ∈ ats → plain a) →
  (∀ o l, (o, l) ∈ rows → plain o ∧ o ≠ "0"%string ∧ o ≠ "1"%string ∧ length l = length ats) →
  NoDup ats → NoDup (map fst rows) →
  ∃ c, read_txt_with_names (txt_file (ats ++ [""%string]) rows) = Ok c ∧ good c ∧ objs c = map (λ r, NStr r.1) rows ∧
    atts c = map NStr ats ∧ np c = map snd rows.
Proof. exact (read_txt_names_tab ats rows). Qed.
Print Assumptions C54_final_tab.
(** The kind of line ends makes no difference. *)
Theorem C54_line_ends s : has_ch cr s = false → read_txt_with_names (with_ends crlf s) = read_txt_with_names s ∧
  read_txt_with_names (with_ends cr1 s) = read_txt_with_names s.
Proof. exact (read_txt_ends s). Qed.
Print Assumptions C54_line_ends.
(** Objects called 0 or 1 are refused. *)
Theorem C54_zero_one ats rows : ats ≠ [""%string] →
  (∀ a, a ∈ ats → plain a) →
  (∀ o l, (o, l) ∈ rows → plain o ∧ length l = length ats ∧ (o ≠ ""%string ∨ ats ≠ [])) →
  (∃ o l, (o, l) ∈ rows ∧ (o = "0"%string ∨ o = "1"%string)) →
  read_txt_with_names (txt_file ats rows) = Err ValueError.
Proof. exact (read_txt_names_01 ats rows). Qed.
Print Assumptions C54_zero_one.
(** So are files without objects. *)
Theorem C54_short ats : (∀ a, a ∈ ats → plain a) →
  read_txt_with_names "" = Err StopIteration ∧
  read_txt_with_names (join tabs ats ++ nl) = Err StopIteration ∧
  read_txt_with_names (join tabs ats ++ nl ++ nl) = Err IndexError.
Proof. exact (read_txt_names_short ats). Qed.
Print Assumptions C54_short.
Definition ex_rows : list (string * list bool) := [("lion", [true; false]); ("finch", [false; true])]%string.
Example C54_case : ∃ c, read_txt_with_names (txt_file ["preying"; "flying"]%string ex_rows) = Ok c ∧
  objs c = [NStr "lion"; NStr "finch"] ∧ np c = [[true; false]; [false; true]].
Proof.
  exists (get_ok empty_cxt (read_txt_with_names (txt_file ["preying"; "flying"]%string ex_rows))).
  split; [by apply get_ok_eq; vm_compute|]. split; dec.
Qed.
Example C54_case_tab : ∃ c, read_txt_with_names (txt_file ["preying"; "flying"; ""]%string ex_rows) = Ok c ∧
  atts c = [NStr "preying"; NStr "flying"].
Proof.
  exists (get_ok empty_cxt (read_txt_with_names (txt_file ["preying"; "flying"; ""]%string ex_rows))).
  split; [by apply get_ok_eq; vm_compute|]. dec.
Qed.
Example C54_case_01 : read_txt_with_names (txt_file ["a"; "b"]%string [("0", [true; false])]%string) = Err ValueError.
Proof. vm_compute. reflexivity. Qed.

(** ** C72: write_fimi *)
Theorem C72_lines ord c : good c →
  write_fimi ord c = Ok (sconcat (map (λ g, (fimi_line (ord (up (abs c) {[g]})) ++ nl)%string) (objs c))).
Proof. exact (write_fimi_ok ord c). Qed.
Print Assumptions C72_lines.
(** The attributes of every row can be read off, whatever the iteration orders. *)
Theorem C72_injective ord1 ord2 c d s :
  (∀ X, ord1 X ≡ₚ elements X) → (∀ X, ord2 X ≡ₚ elements X) → good c → good d →
  (∀ x, x ∈ atts c ++ atts d → is_str x = true ∧ has_ch " "%char (pystr x) = false ∧ has_ch lf (pystr x) = false) →
  write_fimi ord1 c = Ok s → write_fimi ord2 d = Ok s →
  map (λ g, up (abs c) {[g]}) (objs c) = map (λ g, up (abs d) {[g]}) (objs d).
Proof. exact (write_fimi_inj ord1 ord2 c d s). Qed.
Print Assumptions C72_injective.
Example C72_case : write_fimi elements ex = Ok ("b a " ++ nl ++ "a c " ++ nl ++ "a " ++ nl ++ nl)%string.
Proof. dec. Qed.

(** ** C73: readers and writers that always fail *)
Theorem C73_binary_readers s : let e := if decide (s = ""%string) then StopIteration else CsvError in
  read_txt s = Err e ∧ read_mv_txt s = Err e ∧ uread_mv_txt s = Err e ∧ read_mv_csv s = Err e ∧ read_csv s = Err e.
Proof. exact (binary_readers_fail s). Qed.
Print Assumptions C73_binary_readers.
Theorem C73_xml_readers s : read_xml s = Err TypeError ∧ uread_xml s = Err TypeError.
Proof. exact (read_xml_fails s). Qed.
Print Assumptions C73_xml_readers.
Theorem C73_xml_writer ord cs : (∀ X, ord X ≡ₚ elements X) →
  ∃ e, write_xml ord cs = Err e ∧ (e = TypeError ∨ e = AttributeError) ∧
    ((∀ x, x ∈ cs → ∀ n, n ∈ x.1 ∪ x.2 → is_str n = true) → e = TypeError).
Proof. exact (write_xml_fails ord cs). Qed.
Print Assumptions C73_xml_writer.
Example C73_case : read_txt (txt_file ["a"; "b"]%string ex_rows) = Err CsvError ∧ read_csv "" = Err StopIteration ∧
  write_xml elements [({[sa]}, {[sb]})] = Err TypeError ∧ write_xml elements [({[o1]}, {[sb]})] = Err AttributeError.
Proof. split; [|split; [|split]]; vm_compute; reflexivity. Qed.
