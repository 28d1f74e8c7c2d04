(** * Facts about write_mv_txt *)
From Coq Require Import Ascii.
From Verif Require Import Py Spec PyFacts ContextModel ContextSpec ContextFacts StrModel StrFacts FileModel CxtFileModel FileSpec FileFacts TxtFileFacts.
Local Open Scope string_scope.

Lemma join_names_ok l : join_names (map NStr l) = Ok (join tabs l).
Proof.
  unfold join_names. assert (mapM (λ x, match x with NStr s => Ok s | NInt _ => Err TypeError end) (map NStr l) = Ok l) as ->; [|done].
  induction l as [|x l IH]; [done|]. cbn [map mapM mbind res_bind]. cbn [map mapM mbind res_bind] in IH. by rewrite IH.
Qed.
Lemma join_names_Err l : (∃ x, x ∈ l ∧ is_str x = false) → join_names l = Err TypeError.
Proof.
  intros (x & Hx & E). unfold join_names.
  assert (mapM (λ x, match x with NStr s => Ok s | NInt _ => Err TypeError end) l = Err TypeError) as ->; [|done].
  induction l as [|y l IH]; [by apply elem_of_nil in Hx|]. cbn [mapM mbind res_bind].
  apply elem_of_cons in Hx as [<-|Hx]; [by destruct x|]. destruct y; [|done || cbn]; rewrite ?(IH Hx); done.
Qed.

Lemma write_mv_rows_ok c : wf c → ∀ rows k out, drop k (cross c) = rows →
  write_mv_rows c (seq k (length rows)) out = (out ++ sconcat (map (λ r, join tabs (map py_bool r) ++ nl) rows), Ok tt).
Proof.
  intros Hw rows. induction rows as [|r rows IH]; intros k out E.
  - cbn. by rewrite app_nil_r_s.
  - assert (cross c !! k = Some r) as Hr.
    { rewrite <-(Nat.add_0_r k), <-lookup_drop, E. done. }
    cbn [length seq write_mv_rows]. rewrite Hr. rewrite (IH (S k)).
    + cbn [map]. rewrite sconcat_cons, !app_assoc_s. done.
    + rewrite <-Nat.add_1_r, <-drop_drop, E. done.
Qed.

Lemma write_mv_ok c os ats : wf c → objs c = map NStr os → atts c = map NStr ats →
  write_mv_txt c = (mv_file os ats (np c), Ok tt).
Proof.
  intros Hw Ho Ha. unfold write_mv_txt. rewrite Ho, Ha, !join_names_ok, <-Ho.
  rewrite <-(wf_rows _ Hw), <-(wf_cross _ Hw). rewrite (write_mv_rows_ok c Hw (cross c) 0) by done.
  unfold mv_file. cbn [map]. rewrite !sconcat_cons, !app_assoc_s. cbn [join]. rewrite !map_map. done.
Qed.

Lemma write_mv_Err c : wf c →
  ((∃ x, x ∈ objs c ∧ is_str x = false) → write_mv_txt c = ("", Err TypeError)) ∧
  (∀ os, objs c = map NStr os → (∃ x, x ∈ atts c ∧ is_str x = false) → write_mv_txt c = (join tabs os ++ nl, Err TypeError)).
Proof.
  intros Hw. unfold write_mv_txt. split.
  - intros H. by rewrite join_names_Err.
  - intros os E H. rewrite E, join_names_ok, join_names_Err; done.
Qed.

Lemma uwrite_mv_Err c : uwrite_mv_txt c = ("", Err TypeError).
Proof.
  unfold uwrite_mv_txt. destruct (decide (Forall (λ x, is_str x = true) (objs c))) as [H|H].
  - assert (∃ os, objs c = map NStr os) as [os ->]; [|by rewrite join_names_ok].
    induction (objs c) as [|x l IH]; [by exists []|]. apply Forall_cons in H as [Hx H]. destruct (IH H) as [os ->].
    destruct x as [s|z]; [by exists (s :: os)|done].
  - rewrite join_names_Err; [done|]. apply not_Forall_Exists, Exists_exists in H as (x & Hx & E); [|intros x; apply _].
    exists x. split; [done|]. simpl in E. by destruct (is_str x).
Qed.

Definition boolw (b : bool) : string := if b then "True" else "False".
Lemma plain_bool b : plain (boolw b).
Proof. destruct b; done. Qed.

(** A reader in text mode gets the lists back. *)
Lemma mv_file_read os ats rows : (∀ f, f ∈ (os ++ ats)%list → plain f) →
  csv_reader tabc (open_r (mv_file os ats rows)) = map (λ fs, Ok (record_of fs)) (os :: ats :: [] :: map (map boolw) rows).
Proof.
  intros H. unfold mv_file. rewrite csv_file.
  - unfold csv_reader. cbn [fst snd]. apply csv_records_lines.
    intros fs f Hfs Hf. apply elem_of_cons in Hfs as [->|Hfs]; [apply H, elem_of_app; by left|].
    apply elem_of_cons in Hfs as [->|Hfs]; [apply H, elem_of_app; by right|].
    apply elem_of_cons in Hfs as [->|Hfs]; [by apply elem_of_nil in Hf|].
    apply elem_of_list_fmap in Hfs as (r & -> & _). apply elem_of_list_fmap in Hf as (b & -> & _). apply plain_bool.
  - intros fs f Hfs Hf. apply elem_of_cons in Hfs as [->|Hfs]; [apply H, elem_of_app; by left|].
    apply elem_of_cons in Hfs as [->|Hfs]; [apply H, elem_of_app; by right|].
    apply elem_of_cons in Hfs as [->|Hfs]; [by apply elem_of_nil in Hf|].
    apply elem_of_list_fmap in Hfs as (r & -> & _). apply elem_of_list_fmap in Hf as (b & -> & _). apply plain_bool.
Qed.

Lemma record_of_bools r : record_of (map boolw r) = map boolw r.
Proof. destruct r as [|b r]; [done|]. apply record_of_ne. left. exists (boolw b). split; [by left|by destruct b]. Qed.

Lemma mv_records os ats rows : os ≠ [""] → ats ≠ [""] → (∀ f, f ∈ (os ++ ats)%list → plain f) →
  csv_reader tabc (open_r (mv_file os ats rows)) = map Ok (os :: ats :: [] :: map (map boolw) rows).
Proof.
  intros Ho Ha H. rewrite mv_file_read by done. cbn [map]. rewrite (record_of_ats os), (record_of_ats ats) by done.
  change (record_of []) with (@nil string). do 3 f_equal. rewrite !map_map. apply map_ext. intros r. by rewrite record_of_bools.
Qed.

Lemma boolw_inj (r r' : list (list bool)) : map (map boolw) r = map (map boolw) r' → r = r'.
Proof.
  assert (∀ a b, boolw a = boolw b → a = b) as H by by intros [] [].
  assert (∀ l k, map boolw l = map boolw k → l = k) as H'.
  { induction l as [|a l IH]; intros [|b k] E; try done. cbn [map] in E.
    injection E as E1 E2. f_equal; [by apply H|by apply IH]. }
  revert r'. induction r as [|l r IH]; intros [|k r'] E; try done. cbn [map] in E.
  pose proof (f_equal head E) as E1. pose proof (f_equal tail E) as E2. simpl in E1, E2.
  f_equal; [apply H'; congruence|by apply IH].
Qed.

Lemma mv_file_inj os ats rows os' ats' rows' : os ≠ [""] → ats ≠ [""] → os' ≠ [""] → ats' ≠ [""] →
  (∀ f, f ∈ (os ++ ats)%list → plain f) → (∀ f, f ∈ (os' ++ ats')%list → plain f) →
  mv_file os ats rows = mv_file os' ats' rows' → os = os' ∧ ats = ats' ∧ rows = rows'.
Proof.
  intros H1 H2 H3 H4 H5 H6 E. apply (f_equal (λ s, csv_reader tabc (open_r s))) in E.
  rewrite !mv_records in E by done. cbn [map] in E.
  injection E as E1 E2 E3. split; [done|]. split; [done|]. apply boolw_inj.
  apply (fmap_inj Ok); [|exact E3]. by intros ? ? [= ->].
Qed.
