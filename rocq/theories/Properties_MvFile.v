(** * Writing many-valued contexts: the final statements (C105) *)
From Coq Require Import Ascii.
From Verif Require Import Py Spec PyFacts SpecFacts ContextModel ContextSpec ContextOps ContextFacts ContextInit ContextFinal
  StrModel StrFacts FileModel CxtFileModel FileSpec FileFacts TxtFileFacts MvFileFacts Properties_Context.
Local Open Scope string_scope.

Theorem C105_written c os ats : wf c → objs c = map NStr os → atts c = map NStr ats →
  write_mv_txt c = (mv_file os ats (np c), Ok tt).
Proof. exact (write_mv_ok c os ats). Qed.
Print Assumptions C105_written.

(** The records of the file, read in text mode with the tab as delimiter. *)
Theorem C105_records c os ats : wf c → objs c = map NStr os → atts c = map NStr ats →
  os ≠ [""] → ats ≠ [""] → (∀ f, f ∈ (os ++ ats)%list → plain f) →
  csv_reader tabc (open_r (write_mv_txt c).1) =
    map Ok (os :: ats :: [] :: map (map (λ b : bool, if b then "True" else "False")) (np c)).
Proof. intros Hw Ho Ha H1 H2 H3. rewrite (write_mv_ok c os ats Hw Ho Ha). exact (mv_records os ats (np c) H1 H2 H3). Qed.
Print Assumptions C105_records.

(** Different contexts give different files. *)
Theorem C105_injective c d os ats os' ats' : wf c → wf d →
  objs c = map NStr os → atts c = map NStr ats → objs d = map NStr os' → atts d = map NStr ats' →
  os ≠ [""] → ats ≠ [""] → os' ≠ [""] → ats' ≠ [""] →
  (∀ f, f ∈ (os ++ ats)%list → plain f) → (∀ f, f ∈ (os' ++ ats')%list → plain f) →
  (write_mv_txt c).1 = (write_mv_txt d).1 → objs c = objs d ∧ atts c = atts d ∧ np c = np d.
Proof.
  intros Hc Hd E1 E2 E3 E4 N1 N2 N3 N4 P1 P2. rewrite (write_mv_ok c os ats Hc E1 E2), (write_mv_ok d os' ats' Hd E3 E4).
  cbn [fst]. intros E. destruct (mv_file_inj os ats (np c) os' ats' (np d) N1 N2 N3 N4 P1 P2 E) as (F1 & F2 & F3). split; [congruence|]. split; [congruence|exact F3].
Qed.
Print Assumptions C105_injective.

(** Names that are not strings; the variant for unicode. *)
Theorem C105_fails c : wf c →
  ((∃ x, x ∈ objs c ∧ is_str x = false) → write_mv_txt c = ("", Err TypeError)) ∧
  (∀ os, objs c = map NStr os → (∃ x, x ∈ atts c ∧ is_str x = false) → write_mv_txt c = (join tabs os ++ nl, Err TypeError)) ∧
  uwrite_mv_txt c = ("", Err TypeError).
Proof. intros Hw. destruct (write_mv_Err c Hw) as [H1 H2]. exact (conj H1 (conj H2 (uwrite_mv_Err c))). Qed.
Print Assumptions C105_fails.

(** The reader of the same module never gives the context back. *)
Theorem C105_not_read_back c os ats : wf c → objs c = map NStr os → atts c = map NStr ats →
  read_mv_txt (write_mv_txt c).1 = Err CsvError.
Proof.
  intros Hw Ho Ha. rewrite (write_mv_ok c os ats Hw Ho Ha). cbn [fst].
  destruct (binary_readers_fail (mv_file os ats (np c))) as (_ & -> & _). rewrite decide_False; [done|].
  unfold mv_file. cbn [map]. rewrite sconcat_cons. destruct (join tabs os); done.
Qed.
Print Assumptions C105_not_read_back.

(** Without the restriction to one empty name two contexts have the same file. *)
Theorem C105_empty_name_refuted : ∃ c d, good c ∧ good d ∧ atts c ≠ atts d ∧ (write_mv_txt c).1 = (write_mv_txt d).1.
Proof.
  exists (get_ok empty_cxt (mk_context [] None [] [])), (get_ok empty_cxt (mk_context [] None [] [NStr ""])).
  split; [by eapply (mk_context_good [] None [] []); [reflexivity|dec|dec|done]|].
  split; [by eapply (mk_context_good [] None [] [NStr ""]); [reflexivity|dec|dec|done]|].
  split; [by vm_compute|vm_compute; reflexivity].
Qed.
Print Assumptions C105_empty_name_refuted.

Definition mvw := get_ok empty_cxt (mk_context [[true; false]; [false; true]] None [NStr "lion"; NStr "finch"] [NStr "preys"; NStr "flies"]).
Example C105_case : wf mvw ∧ objs mvw = map NStr ["lion"; "finch"] ∧ atts mvw = map NStr ["preys"; "flies"] ∧
  (∀ f, f ∈ ["lion"; "finch"; "preys"; "flies"] → plain f) ∧
  write_mv_txt mvw = ("lion" ++ tabs ++ "finch" ++ nl ++ "preys" ++ tabs ++ "flies" ++ nl ++ nl ++
    "True" ++ tabs ++ "False" ++ nl ++ "False" ++ tabs ++ "True" ++ nl, Ok tt) ∧
  write_mv_txt ex = ("", Err TypeError).
Proof.
  split.
  { eapply (good_wf mvw), (mk_context_good [[true; false]; [false; true]] None [NStr "lion"; NStr "finch"] [NStr "preys"; NStr "flies"]); [reflexivity|dec|dec|done]. }
  split; [reflexivity|]. split; [reflexivity|].
  split; [|split; vm_compute; reflexivity]. intros f Hf. repeat (apply elem_of_cons in Hf as [->|Hf]; [done|]). by apply elem_of_nil in Hf.
Qed.
