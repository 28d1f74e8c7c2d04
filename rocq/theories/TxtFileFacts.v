(** * Tab separated files *)
From Coq Require Import Ascii.
From Verif Require Import Py PyFacts Spec SpecFacts ContextModel ContextSpec ContextOps ContextFacts ContextInit ContextFinal
  StrModel StrSpec StrFacts FileModel CxtFileModel FileSpec FileFacts CxtFileFacts.
Local Open Scope string_scope.

Lemma is_nl_false c s : has_ch lf (String c s) = false → has_ch cr (String c s) = false → is_nl c = false.
Proof. cbn [has_ch]. unfold is_nl. intros [-> _]%orb_false_iff [-> _]%orb_false_iff. done. Qed.
Lemma plain_tail c s : has_ch lf (String c s) = false ∧ has_ch cr (String c s) = false ∧ has_ch tabc (String c s) = false →
  is_nl c = false ∧ c ≠ tabc ∧ has_ch lf s = false ∧ has_ch cr s = false ∧ has_ch tabc s = false.
Proof.
  intros (H1 & H2 & H3). split; [by eapply is_nl_false|]. cbn [has_ch] in *.
  apply orb_false_iff in H1 as [_ H1], H2 as [_ H2], H3 as [H3' H3]. apply bool_decide_eq_false in H3'. done.
Qed.
Lemma csv_in_field f rest rec acc : has_ch lf f = false ∧ has_ch cr f = false ∧ has_ch tabc f = false →
  csv_line tabc (f ++ rest) (InField, rec, acc) = csv_line tabc rest (InField, rec, acc ++ f).
Proof.
  revert acc. induction f as [|c f IH]; intros acc H; [by rewrite app_nil_r_s|].
  apply plain_tail in H as (Hnl & Hd & Hf). rewrite app_cons_s. cbn [csv_line].
  unfold csv_char. cbn [fst snd]. rewrite Hnl, decide_False by done. cbn [mbind res_bind]. unfold csv_add. cbn [fst snd].
  rewrite IH by done. by rewrite app_assoc_s.
Qed.
(** One field from its start: afterwards the reader is in [StartField] (empty field) or [InField]. *)
Lemma csv_field f rest rec : plain f →
  csv_line tabc (f ++ rest) (StartField, rec, "") =
  csv_line tabc rest (match f with EmptyString => StartField | _ => InField end, rec, f).
Proof.
  intros ((H1 & H2) & H3 & H4). destruct f as [|c f]; [done|].
  destruct (plain_tail c f) as (Hnl & Hd & Hf); [done|]. rewrite app_cons_s. cbn [csv_line].
  unfold csv_char, csv_start_field. cbn [fst snd]. rewrite Hnl. cbn [starts_with_quote] in H4.
  apply bool_decide_eq_false in H4. rewrite !decide_False by done. cbn [mbind res_bind]. unfold csv_add. cbn [fst snd].
  by rewrite csv_in_field.
Qed.
Lemma join_cons2 sep x y l : join sep (x :: y :: l) = x ++ sep ++ join sep (y :: l).
Proof. done. Qed.
Lemma csv_fields fs rec : fs ≠ [] → (∀ f, f ∈ fs → plain f) →
  csv_line tabc (join tabs fs ++ nl) (StartField, rec, "") = Ok (StartRecord, (rec ++ fs)%list, "").
Proof.
  revert rec. induction fs as [|f fs IH]; intros rec Hne H; [done|].
  destruct fs as [|g fs].
  - cbn [join]. rewrite csv_field by (apply H; by left). unfold nl. by destruct f.
  - rewrite join_cons2, !app_assoc_s. rewrite csv_field by (apply H; by left).
    unfold tabs at 1. rewrite app_cons_s, app_nil_l_s. cbn [csv_line].
    replace (csv_char tabc tabc (match f with "" => StartField | String _ _ => InField end, rec, f))
      with (Ok (StartField, (rec ++ [f])%list, "")) by (by destruct f).
    cbn [mbind res_bind]. rewrite IH; [|done|intros; apply H; by right]. by rewrite <-app_assoc.
Qed.
Lemma csv_start l : (∀ a s, l = String a s → is_nl a = false) → l ≠ "" →
  csv_line tabc (l ++ nl) csv_init = csv_line tabc (l ++ nl) (StartField, [], "").
Proof.
  intros H Hne. destruct l as [|a s]; [done|]. rewrite app_cons_s. cbn [csv_line]. unfold csv_char, csv_init.
  cbn [fst snd]. by rewrite (H a s).
Qed.
Lemma join_no_nl fs a s : (∀ f, f ∈ fs → plain f) → join tabs fs = String a s → is_nl a = false.
Proof.
  intros H. destruct fs as [|f fs]; [done|]. destruct f as [|b f].
  - destruct fs as [|g fs]; [done|]. rewrite join_cons2, app_nil_l_s. unfold tabs at 1. rewrite app_cons_s. by intros [= <- _].
  - intros E. assert (a = b) as ->. { destruct fs; [cbn [join] in E|rewrite join_cons2, app_cons_s in E]; by simplify_eq. }
    destruct (H (String b f)) as ((H1 & H2) & _); [by left|]. by eapply is_nl_false.
Qed.
(** The record read from a line of plain fields. *)
Definition record_of (fs : list string) : list string := if decide (join tabs fs = "") then [] else fs.
Lemma csv_record_line fs : (∀ f, f ∈ fs → plain f) →
  csv_line tabc (join tabs fs ++ nl) csv_init = Ok (StartRecord, record_of fs, "").
Proof.
  intros H. unfold record_of. case_decide as E; [by rewrite E|].
  rewrite csv_start; [|intros a s; by apply join_no_nl|done]. rewrite csv_fields; [done| |done]. by intros ->.
Qed.
Lemma csv_records_lines (l : list (list string)) : (∀ fs f, fs ∈ l → f ∈ fs → plain f) →
  csv_records tabc false csv_init (map (λ fs, join tabs fs ++ nl) l) = map (λ fs, Ok (record_of fs)) l.
Proof.
  induction l as [|fs l IH]; intros H; [done|]. cbn [map csv_records].
  rewrite csv_record_line by (intros f; apply H; by left). cbn [fst snd]. rewrite decide_True by done.
  f_equal. apply IH. intros; eapply H; [by right|done].
Qed.
Lemma one_line_join fs : (∀ f, f ∈ fs → plain f) → one_line (join tabs fs).
Proof.
  induction fs as [|f fs IH]; intros H; [done|]. destruct (H f) as [[H1 H2] _]; [by left|].
  destruct fs as [|g fs]; [done|]. rewrite join_cons2.
  destruct IH as [H3 H4]; [intros; apply H; by right|]. split; rewrite !has_ch_app, ?H1, ?H2, ?H3, ?H4; done.
Qed.
(** A whole file. *)
Lemma csv_file (l : list (list string)) : (∀ fs f, fs ∈ l → f ∈ fs → plain f) →
  open_r (sconcat (map (λ fs, join tabs fs ++ nl) l)) = (false, map (λ fs, join tabs fs ++ nl) l).
Proof.
  intros H. rewrite <-(map_map (join tabs) (λ x, x ++ nl)). apply open_lines. intros x Hx.
  apply elem_of_list_fmap in Hx as (fs & -> & Hfs). apply one_line_join. intros f. by apply H.
Qed.

(** ** read_txt_with_names *)
Lemma plain_bit b : plain (bit b).
Proof. destruct b; done. Qed.
Lemma cells01_bits l : cells01 (map bit l) = l.
Proof. induction l as [|b l IH]; [done|]. cbn [map]. unfold cells01 in *. cbn [omap list_omap]. rewrite IH. by destruct b. Qed.
Lemma cells01_row o l : is01 o = false → cells01 (o :: map bit l) = l.
Proof.
  unfold is01. intros [H1 H2]%orb_false_iff. apply bool_decide_eq_false in H1, H2.
  unfold cells01. cbn [omap list_omap]. rewrite !decide_False by done. apply cells01_bits.
Qed.
Lemma cells01_row_bad o l : is01 o = true → length (cells01 (o :: map bit l)) = S (length l).
Proof.
  unfold is01. rewrite orb_true_iff, !bool_decide_eq_true. unfold cells01. cbn [omap list_omap].
  intros [->| ->]; [rewrite decide_True by done|rewrite decide_False, decide_True by done]; cbn [length]; f_equal;
  by rewrite <-(cells01_bits l) at 2.
Qed.
Lemma record_of_ne fs : (∃ f, f ∈ fs ∧ f ≠ "") ∨ (2 ≤ length fs)%nat → record_of fs = fs.
Proof.
  intros H. unfold record_of. case_decide as E; [|done]. destruct fs as [|f [|g fs]]; [done|..].
  - destruct H as [(h & Hh & Hn)|H]; [|cbn in H; lia]. apply elem_of_list_singleton in Hh as ->. done.
  - rewrite join_cons2 in E. by destruct f.
Qed.
Section file.
  Context (ats : list string) (rows : list (string * list bool)).
  Context (Hats : ∀ a, a ∈ ats → plain a).
  Context (Hos : ∀ r, r ∈ rows → plain r.1).
  Context (Hne : ∀ r, r ∈ rows → r.1 ≠ "" ∨ r.2 ≠ []).
  Lemma txt_lines : open_r (txt_file ats rows) =
    (false, map (λ fs, join tabs fs ++ nl) (ats :: [] :: map (λ r, r.1 :: map bit r.2) rows)).
  Proof.
    apply csv_file. intros fs f Hfs Hf.
    apply elem_of_cons in Hfs as [->|Hfs]; [by apply Hats|].
    apply elem_of_cons in Hfs as [->|Hfs]; [by apply elem_of_nil in Hf|].
    apply elem_of_list_fmap in Hfs as (r & -> & Hr).
    apply elem_of_cons in Hf as [->|Hf]; [by apply Hos|]. apply elem_of_list_fmap in Hf as (b & -> & _). apply plain_bit.
  Qed.
  Lemma txt_records : csv_reader tabc (open_r (txt_file ats rows)) =
    Ok (record_of ats) :: Ok [] :: map (λ r, Ok (r.1 :: map bit r.2)) rows.
  Proof.
    rewrite txt_lines. unfold csv_reader. cbn [fst snd]. rewrite csv_records_lines.
    - cbn [map]. f_equal. f_equal. rewrite map_map. apply map_ext_in. intros r Hr%elem_of_list_In. f_equal.
      apply record_of_ne. destruct (Hne r Hr) as [H|H].
      + left. exists r.1. split; [by left|done].
      + right. cbn [length]. rewrite map_length. destruct r.2; [done|cbn; lia].
    - intros fs f Hfs Hf.
      apply elem_of_cons in Hfs as [->|Hfs]; [by apply Hats|].
      apply elem_of_cons in Hfs as [->|Hfs]; [by apply elem_of_nil in Hf|].
      apply elem_of_list_fmap in Hfs as (r & -> & Hr).
      apply elem_of_cons in Hf as [->|Hf]; [by apply Hos|]. apply elem_of_list_fmap in Hf as (b & -> & _). apply plain_bit.
  Qed.
  Lemma txt_rows : mapM named_row (map (λ r, Ok (r.1 :: map bit r.2)) rows) =
    Ok (map (λ r, (NStr r.1, cells01 (r.1 :: map bit r.2))) rows).
  Proof.
    clear. induction rows as [|r l IH]; [done|]. cbn [map]. rewrite mapM_cons, IH. done.
  Qed.
  Lemma txt_read : read_txt_with_names (txt_file ats rows) =
    match rows with
    | [] => Err IndexError
    | r :: _ =>
        mk_context (map (λ r, cells01 (r.1 :: map bit r.2)) rows) None (map (λ r, NStr r.1) rows)
          (map NStr (if decide (length (record_of ats) = length (cells01 (r.1 :: map bit r.2))) then map strip (record_of ats)
                     else but_last (py_split tabs (join tabs ats ++ nl))))
    end.
  Proof.
    unfold read_txt_with_names. rewrite txt_records. cbn [csv_next mbind res_bind].
    rewrite txt_rows. cbn [mbind res_bind]. rewrite txt_lines. cbn [snd map readline fst].
    rewrite !map_map. destruct rows as [|r l]; [done|]. cbn [map get_or lookup list_lookup mbind res_bind snd fst].
    rewrite map_length. done.
  Qed.
End file.

Lemma split_char d f rest : has_ch d f = false → py_split (String d "") (f ++ String d rest) = f :: py_split (String d "") rest.
Proof.
  intros H. induction f as [|b f IH].
  - change ("" ++ String d rest) with (String d "" ++ rest). apply split_hit.
  - rewrite app_cons_s. cbn [has_ch] in H. apply orb_false_iff in H as [H1 H2]. apply bool_decide_eq_false in H1.
    unfold py_split in *. cbn [split_from String.prefix]. destruct (ascii_dec d b); [by subst|]. by rewrite IH.
Qed.
Lemma split_char_none d f : has_ch d f = false → py_split (String d "") f = [f].
Proof.
  intros H. induction f as [|b f IH]; [done|]. cbn [has_ch] in H. apply orb_false_iff in H as [H1 H2]. apply bool_decide_eq_false in H1.
  unfold py_split in *. cbn [split_from String.prefix]. destruct (ascii_dec d b); [by subst|]. by rewrite IH.
Qed.
Lemma but_last_snoc {A} (l : list A) x : but_last (l ++ [x])%list = l.
Proof. unfold but_last. rewrite app_length. cbn. replace (length l + 1 - 1)%nat with (length l) by lia. by rewrite take_app. Qed.
Lemma split_tabs_nl ats x : (∀ a, a ∈ ats → has_ch tabc a = false) → has_ch tabc x = false →
  py_split tabs (join tabs (ats ++ [x])%list ++ nl) = (ats ++ [(x ++ nl)%string])%list.
Proof.
  intros H Hx. induction ats as [|a ats IH].
  - cbn [app join]. apply split_char_none. rewrite has_ch_app, Hx. done.
  - rewrite <-!app_comm_cons. destruct (ats ++ [x])%list as [|g l] eqn:E; [by destruct ats|].
    rewrite join_cons2, app_assoc_s. change ((tabs ++ join tabs (g :: l)) ++ nl) with (String tabc (join tabs (g :: l) ++ nl)).
    unfold tabs at 1. rewrite split_char by (apply H; by left). f_equal. apply IH. intros; apply H. by right.
Qed.
Lemma but_last_tabs ats : (∀ a, a ∈ ats → has_ch tabc a = false) →
  but_last (py_split tabs (join tabs ats ++ nl)) = but_last ats.
Proof.
  intros H. destruct ats as [|x l _] using rev_ind; [done|]. rewrite split_tabs_nl, !but_last_snoc.
  - done.
  - intros a Ha. apply H, elem_of_app. by left.
  - apply H, elem_of_app. right. by left.
Qed.
Lemma record_of_ats ats : ats ≠ [""] → record_of ats = ats.
Proof.
  intros H. destruct ats as [|a [|b l]]; [done|..].
  - apply record_of_ne. left. exists a. split; [by left|]. intros ->. done.
  - apply record_of_ne. right. cbn. lia.
Qed.
Lemma map_strip l : (∀ a, a ∈ l → strip a = a) → map strip l = l.
Proof.
  intros H. induction l as [|a l IH]; [done|]. cbn [map]. rewrite H by by left. f_equal. apply IH. intros; apply H. by right.
Qed.
Lemma map_cells rows : (∀ r, r ∈ rows → is01 r.1 = false) →
  map (λ r : string * list bool, cells01 (r.1 :: map bit r.2)) rows = map snd rows.
Proof. intros H. apply map_ext_in. intros r Hr%elem_of_list_In. apply cells01_row. by apply H. Qed.

Lemma read_txt_names_ok ats rows : rows ≠ [] → ats ≠ [""] →
  (∀ a, a ∈ ats → plain a ∧ strip a = a) →
  (∀ o l, (o, l) ∈ rows → plain o ∧ o ≠ "0" ∧ o ≠ "1" ∧ length l = length ats ∧ (o ≠ "" ∨ ats ≠ [])) →
  NoDup ats → NoDup (map fst rows) →
  ∃ c, read_txt_with_names (txt_file ats rows) = Ok c ∧ good c ∧ objs c = map (λ r, NStr r.1) rows ∧
    atts c = map NStr ats ∧ np c = map snd rows.
Proof.
  intros Hr Ha Hats Hrows Hnd1 Hnd2. rewrite txt_read.
  2:{ intros a Hx. by apply Hats. }
  2:{ intros [o l] Hx. by apply (Hrows o l) in Hx as (? & _). }
  2:{ intros [o l] Hx. apply (Hrows o l) in Hx as (_ & _ & _ & H1 & [H2|H2]); [by left|]. right. destruct l, ats; done. }
  destruct rows as [|r rows]; [done|].
  rewrite record_of_ats by done. rewrite decide_True.
  2:{ destruct r as [o l]. destruct (Hrows o l) as (_ & H0 & H1 & H2 & _); [by left|]. cbn [fst snd].
      rewrite cells01_row; [done|]. unfold is01. by rewrite !bool_decide_false. }
  rewrite map_strip by (intros; by apply Hats).
  rewrite map_cells.
  2:{ intros [o l] Hx. apply (Hrows o l) in Hx as (_ & H0 & H1 & _). unfold is01. by rewrite !bool_decide_false. }
  set (rs := r :: rows) in *.
  destruct (mk_context_ok (map snd rs) None (map (λ r, NStr r.1) rs) (map NStr ats)) as [d Hd].
  { by rewrite !map_length. }
  { intros b Hb. apply elem_of_list_fmap in Hb as ([o l] & -> & Hx). rewrite map_length. by destruct (Hrows o l Hx) as (_ & _ & _ & ? & _). }
  exists d. split; [done|].
  apply (mk_context_good _ _ _ _ _ Hd); [..|done].
  - rewrite <-(map_map fst NStr). apply NoDup_fmap_2; [|done]. intros ?? [= ->]. done.
  - apply NoDup_fmap_2; [|done]. intros ?? [= ->]. done.
Qed.
Lemma read_txt_names_01 ats rows : ats ≠ [""] →
  (∀ a, a ∈ ats → plain a) →
  (∀ o l, (o, l) ∈ rows → plain o ∧ length l = length ats ∧ (o ≠ "" ∨ ats ≠ [])) →
  (∃ o l, (o, l) ∈ rows ∧ (o = "0" ∨ o = "1")) →
  read_txt_with_names (txt_file ats rows) = Err ValueError.
Proof.
  intros Ha Hats Hrows (o0 & l0 & Hin & H01). rewrite txt_read.
  2:{ intros a Hx. by apply Hats. }
  2:{ intros [o l] Hx. by apply (Hrows o l) in Hx as (? & _). }
  2:{ intros [o l] Hx. apply (Hrows o l) in Hx as (_ & H1 & [H2|H2]); [by left|]. right. destruct l, ats; done. }
  destruct rows as [|r rows]; [by apply elem_of_nil in Hin|].
  rewrite record_of_ats by done.
  assert (length (cells01 (o0 :: map bit l0)) = S (length ats)) as Hbad.
  { rewrite cells01_row_bad; [f_equal; by apply (Hrows o0 l0)|]. unfold is01. rewrite orb_true_iff, !bool_decide_eq_true. done. }
  rewrite but_last_tabs by (intros a Hx; by apply Hats).
  rewrite mk_context_spec, decide_False; [done|]. intros [_ HF]. rewrite Forall_forall in HF.
  assert (cells01 (o0 :: map bit l0) ∈ map (λ r : string * list bool, cells01 (r.1 :: map bit r.2)) (r :: rows)) as Hel.
  { apply elem_of_list_fmap. by exists (o0, l0). }
  apply HF in Hel. rewrite map_length in Hel. rewrite Hbad in Hel.
  case_decide as E.
  - rewrite map_length in Hel. lia.
  - unfold but_last in Hel. rewrite take_length in Hel. lia.
Qed.
Lemma read_txt_names_tab ats rows : rows ≠ [] → ats ≠ [] →
  (∀ a, a ∈ ats → plain a) →
  (∀ o l, (o, l) ∈ rows → plain o ∧ o ≠ "0" ∧ o ≠ "1" ∧ length l = length ats) →
  NoDup ats → NoDup (map fst rows) →
  ∃ c, read_txt_with_names (txt_file (ats ++ [""])%list rows) = Ok c ∧ good c ∧ objs c = map (λ r, NStr r.1) rows ∧
    atts c = map NStr ats ∧ np c = map snd rows.
Proof.
  intros Hr Ha Hats Hrows Hnd1 Hnd2.
  assert (∀ a, a ∈ (ats ++ [""])%list → plain a) as Hats'.
  { intros a [Hx|Hx%elem_of_list_singleton]%elem_of_app; [by apply Hats|by subst]. }
  rewrite txt_read.
  2:{ done. }
  2:{ intros [o l] Hx. by apply (Hrows o l) in Hx as (? & _). }
  2:{ intros [o l] Hx. apply (Hrows o l) in Hx as (_ & _ & _ & H1). right. destruct l, ats; done. }
  destruct rows as [|r rows]; [done|].
  rewrite record_of_ats.
  2:{ destruct ats as [|? []]; done. }
  rewrite decide_False.
  2:{ destruct r as [o l]. destruct (Hrows o l) as (_ & H0 & H1 & H2); [by left|]. cbn [fst snd].
      rewrite cells01_row; [rewrite app_length; cbn; lia|]. unfold is01. by rewrite !bool_decide_false. }
  rewrite but_last_tabs, but_last_snoc by (intros a Hx; by apply Hats').
  rewrite map_cells.
  2:{ intros [o l] Hx. apply (Hrows o l) in Hx as (_ & H0 & H1 & _). unfold is01. by rewrite !bool_decide_false. }
  set (rs := r :: rows) in *.
  destruct (mk_context_ok (map snd rs) None (map (λ r, NStr r.1) rs) (map NStr ats)) as [d Hd].
  { by rewrite !map_length. }
  { intros b Hb. apply elem_of_list_fmap in Hb as ([o l] & -> & Hx). rewrite map_length. by destruct (Hrows o l Hx) as (_ & _ & _ & ?). }
  exists d. split; [done|].
  apply (mk_context_good _ _ _ _ _ Hd); [..|done].
  - rewrite <-(map_map fst NStr). apply NoDup_fmap_2; [|done]. intros ?? [= ->]. done.
  - apply NoDup_fmap_2; [|done]. intros ?? [= ->]. done.
Qed.
Lemma read_txt_names_short ats : (∀ a, a ∈ ats → plain a) →
  read_txt_with_names "" = Err StopIteration ∧
  read_txt_with_names (join tabs ats ++ nl) = Err StopIteration ∧
  read_txt_with_names (join tabs ats ++ nl ++ nl) = Err IndexError.
Proof.
  intros H. split; [done|]. split.
  - unfold read_txt_with_names.
    replace (join tabs ats ++ nl) with (sconcat (map (λ fs, join tabs fs ++ nl) [ats])) at 1 by done.
    rewrite csv_file.
    2:{ intros fs f ->%elem_of_list_singleton. apply H. }
    unfold csv_reader. cbn [fst snd]. rewrite csv_records_lines.
    2:{ intros fs f ->%elem_of_list_singleton. apply H. }
    done.
  - replace (join tabs ats ++ nl ++ nl) with (txt_file ats []).
    + rewrite txt_read; [done|done|..]; by intros r ?%elem_of_nil.
    + unfold txt_file. cbn [map]. rewrite !sconcat_cons. rewrite app_assoc_s. done.
Qed.

(** ** Readers that open the file in binary mode *)
Lemma rb_next d s : csv_next (csv_reader d (open_rb s)) = Err (if decide (s = "") then StopIteration else CsvError).
Proof.
  unfold open_rb, csv_reader. cbn [fst snd]. case_decide as E; [by subst|].
  destruct (file_lines s) as [|l f] eqn:El; [|done]. destruct s as [|a s]; [done|]. cbn [file_lines] in El.
  case_decide; [done|]. by destruct (file_lines s).
Qed.
Lemma binary_readers_fail s : let e := if decide (s = "") then StopIteration else CsvError in
  read_txt s = Err e ∧ read_mv_txt s = Err e ∧ uread_mv_txt s = Err e ∧ read_mv_csv s = Err e ∧ read_csv s = Err e.
Proof.
  intros e. unfold read_txt, read_mv_txt, uread_mv_txt, read_csv, read_mv_csv. rewrite !rb_next. repeat split.
Qed.

(** ** write_fimi *)
Lemma write_fimi_ok ord c : good c → write_fimi ord c =
  Ok (sconcat (map (λ g, fimi_line (ord (up (abs c) {[g]})) ++ nl) (objs c))).
Proof.
  intros Hg. unfold write_fimi. rewrite (mapM_Ok_map _ (λ g, fimi_line (ord (up (abs c) {[g]})) ++ nl)); [done|].
  intros g Hx. rewrite get_object_intent_spec by done. done.
Qed.
(** A blank-free list of names can be read back. *)
Lemma fimi_line_inj l k : (∀ x, x ∈ l ++ k → has_ch " "%char (pystr x) = false)%list →
  fimi_line l = fimi_line k → map pystr l = map pystr k.
Proof.
  assert (∀ l, (∀ x, x ∈ l → has_ch " "%char (pystr x) = false) → py_split " " (fimi_line l) = (map pystr l ++ [""])%list) as H.
  { clear. intros l H. induction l as [|x l IH]; [done|]. unfold fimi_line. cbn [map]. rewrite sconcat_cons, app_assoc_s.
    rewrite app_cons_s, app_nil_l_s, split_char by (apply H; by left).
    rewrite <-app_comm_cons. f_equal. apply IH. intros; apply H. by right. }
  intros Hx E. apply (f_equal (py_split " ")) in E. rewrite !H in E.
  - by apply app_inj_tail in E as [E _].
  - intros; apply Hx, elem_of_app. by right.
  - intros; apply Hx, elem_of_app. by left.
Qed.
Lemma fimi_line_one l : (∀ x, x ∈ l → has_ch lf (pystr x) = false) → has_ch lf (fimi_line l) = false.
Proof.
  intros H. induction l as [|x l IH]; [done|]. unfold fimi_line. cbn [map]. rewrite sconcat_cons, !has_ch_app.
  rewrite H by by left. cbn [orb has_ch]. fold (fimi_line l). rewrite IH; [done|]. intros; apply H. by right.
Qed.
Lemma lines_inj (l k : list string) : (∀ x, x ∈ l ++ k → has_ch lf x = false)%list →
  sconcat (map (λ x, x ++ nl) l) = sconcat (map (λ x, x ++ nl) k) → l = k.
Proof.
  assert (∀ l, (∀ x, x ∈ l → has_ch lf x = false) → file_lines (sconcat (map (λ x, x ++ nl) l)) = map (λ x, x ++ nl) l) as H.
  { clear. intros l H. induction l as [|x l IH]; [done|]. cbn [map]. rewrite sconcat_cons, app_assoc_s, file_lines_app by (apply H; by left).
    f_equal. apply IH. intros; apply H. by right. }
  intros Hx E. apply (f_equal file_lines) in E. rewrite !H in E.
  - assert (∀ a b, a ++ nl = b ++ nl → a = b) as Hi.
    { clear. induction a as [|c a IH]; intros [|d b] E; [done|..].
      - rewrite app_cons_s, app_nil_l_s in E. injection E as _ E. by destruct b.
      - rewrite app_cons_s, app_nil_l_s in E. injection E as _ E. by destruct a.
      - rewrite !app_cons_s in E. injection E as -> E. f_equal. by apply IH. }
    clear -E Hi. revert k E. induction l as [|x l IH]; intros [|y k] E; try done. cbn [map] in E.
    injection E as E1 E2. apply Hi in E1 as ->. f_equal. by apply IH.
  - intros; apply Hx, elem_of_app. by right.
  - intros; apply Hx, elem_of_app. by left.
Qed.
Lemma pystr_inj_str x y : is_str x = true → is_str y = true → pystr x = pystr y → x = y.
Proof. destruct x, y; try done. cbn. by intros _ _ ->. Qed.
Lemma write_fimi_inj ord1 ord2 c d s :
  (∀ X, ord1 X ≡ₚ elements X) → (∀ X, ord2 X ≡ₚ elements X) → good c → good d →
  (∀ x, x ∈ atts c ++ atts d → is_str x = true ∧ has_ch " "%char (pystr x) = false ∧ has_ch lf (pystr x) = false)%list →
  write_fimi ord1 c = Ok s → write_fimi ord2 d = Ok s →
  map (λ g, up (abs c) {[g]}) (objs c) = map (λ g, up (abs d) {[g]}) (objs d).
Proof.
  intros H1 H2 Hc Hd Hx Ec Ed. rewrite write_fimi_ok in Ec, Ed by done.
  rewrite <-Ed in Ec. clear s Ed. apply Ok_inj in Ec.
  rewrite <-(map_map (λ g, fimi_line (ord1 (up (abs c) {[g]}))) (λ x, x ++ nl)) in Ec.
  rewrite <-(map_map (λ g, fimi_line (ord2 (up (abs d) {[g]}))) (λ x, x ++ nl)) in Ec.
  assert (∀ x g, x ∈ ord1 (up (abs c) {[g]}) → x ∈ atts c) as M1.
  { intros x g. rewrite H1, elem_of_elements. unfold up. rewrite elem_of_filter. cbn [abs fM]. rewrite elem_of_list_to_set. tauto. }
  assert (∀ x g, x ∈ ord2 (up (abs d) {[g]}) → x ∈ atts d) as M2.
  { intros x g. rewrite H2, elem_of_elements. unfold up. rewrite elem_of_filter. cbn [abs fM]. rewrite elem_of_list_to_set. tauto. }
  apply lines_inj in Ec.
  2:{ intros x [Hl|Hl]%elem_of_app; apply elem_of_list_fmap in Hl as (g & -> & Hg); apply fimi_line_one; intros y Hy; apply Hx, elem_of_app.
      - left. by eapply M1. - right. by eapply M2. }
  apply list_eq. intros i. apply (f_equal (.!! i)) in Ec. rewrite !list_lookup_fmap in *.
  destruct (objs c !! i) as [g|] eqn:Eg, (objs d !! i) as [h|] eqn:Eh; try done. cbn [fmap option_fmap option_map] in *.
  f_equal. injection Ec as Ec. apply fimi_line_inj in Ec.
  2:{ intros x [Hl|Hl]%elem_of_app; apply Hx, elem_of_app; [left; by eapply M1|right; by eapply M2]. }
  assert (∀ x, pystr x ∈ map pystr (ord1 (up (abs c) {[g]})) ↔ pystr x ∈ map pystr (ord2 (up (abs d) {[h]}))) as HE by (intros; by rewrite Ec).
  assert (∀ x y, x ∈ ord1 (up (abs c) {[g]}) → y ∈ ord2 (up (abs d) {[h]}) → pystr x = pystr y → x = y) as HI.
  { intros x y X1 X2. apply pystr_inj_str; apply Hx, elem_of_app; [left; by eapply M1|right; by eapply M2]. }
  apply set_eq. intros x. rewrite <-(elem_of_elements (up (abs c) {[g]})), <-H1, <-(elem_of_elements (up (abs d) {[h]})), <-H2.
  split; intros Hin.
  - assert (pystr x ∈ map pystr (ord2 (up (abs d) {[h]}))) as Hy by (apply HE; by apply elem_of_list_fmap_1).
    apply elem_of_list_fmap in Hy as (y & Ey & Hy). by rewrite (HI x y Hin Hy Ey).
  - assert (pystr x ∈ map pystr (ord1 (up (abs c) {[g]}))) as Hy by (apply HE; by apply elem_of_list_fmap_1).
    apply elem_of_list_fmap in Hy as (y & Ey & Hy). by rewrite <-(HI y x Hy Hin (eq_sym Ey)).
Qed.
