(** * Lemmas about files, [int()] and the csv reader *)
From Coq Require Import Ascii.
From Verif Require Import Py PyFacts ContextModel StrModel StrSpec StrFacts FileModel CxtFileModel FileSpec.
Local Open Scope string_scope.

Lemma app_nil_l_s (s : string) : "" ++ s = s.
Proof. done. Qed.
(** ** Lines *)
Lemma has_ch_app a s t : has_ch a (s ++ t) = has_ch a s || has_ch a t.
Proof. induction s as [|b s IH]; [done|]. rewrite app_cons_s. cbn [has_ch]. rewrite IH. by rewrite orb_assoc. Qed.
Lemma univ_no_cr s : has_ch cr s = false → univ_newlines s = s.
Proof.
  induction s as [|b s IH]; [done|]. cbn [has_ch univ_newlines]. intros [H1 H2]%orb_false_iff.
  apply bool_decide_eq_false in H1. rewrite decide_False by done. by rewrite IH.
Qed.
Lemma univ_crlf s : has_ch cr s = false → univ_newlines (with_ends crlf s) = s.
Proof.
  induction s as [|b s IH]; [done|]. cbn [has_ch with_ends]. intros [H1 H2]%orb_false_iff. apply bool_decide_eq_false in H1.
  destruct (decide (b = lf)) as [->|Hb].
  - unfold crlf at 1. rewrite !app_cons_s, app_nil_l_s. cbn [univ_newlines]. rewrite decide_True by done. rewrite decide_True by done.
    by rewrite IH.
  - cbn [univ_newlines]. rewrite decide_False by done. by rewrite IH.
Qed.
Lemma univ_cr1 s : has_ch cr s = false → univ_newlines (with_ends cr1 s) = s.
Proof.
  induction s as [|b s IH]; [done|]. cbn [has_ch with_ends]. intros [H1 H2]%orb_false_iff. apply bool_decide_eq_false in H1.
  destruct (decide (b = lf)) as [->|Hb].
  - unfold cr1 at 1. rewrite !app_cons_s, app_nil_l_s. cbn [univ_newlines]. rewrite decide_True by done.
    f_equal. specialize (IH H2). destruct s as [|d s]; [done|]. cbn [with_ends] in IH |- *. destruct (decide (d = lf)) as [->|Hd].
    + unfold cr1 at 1 in IH. unfold cr1 at 1. rewrite !app_cons_s, app_nil_l_s. rewrite !app_cons_s, app_nil_l_s in IH. rewrite decide_False by done. exact IH.
    + rewrite decide_False by done. exact IH.
  - cbn [univ_newlines]. rewrite decide_False by done. by rewrite IH.
Qed.
Lemma file_lines_app s t : has_ch lf s = false → file_lines (s ++ nl ++ t) = (s ++ nl) :: file_lines t.
Proof.
  induction s as [|b s IH]; intros H.
  - change ("" ++ nl ++ t) with (String lf t). cbn [file_lines]. by rewrite decide_True.
  - rewrite !app_cons_s. cbn [has_ch] in H. apply orb_false_iff in H as [H1 H2].
    apply bool_decide_eq_false in H1. cbn [file_lines]. rewrite decide_False by done. by rewrite IH.
Qed.
Lemma sconcat_cons x l : sconcat (x :: l) = x ++ sconcat l.
Proof. unfold sconcat. cbn [join]. destruct l; [by rewrite app_nil_r_s|done]. Qed.
Lemma sconcat_app l k : sconcat (l ++ k)%list = sconcat l ++ sconcat k.
Proof. induction l as [|x l IH]; [done|]. rewrite <-app_comm_cons, !sconcat_cons, IH. by rewrite app_assoc_s. Qed.
Lemma has_ch_sconcat a l : has_ch a (sconcat l) = existsb (has_ch a) l.
Proof. induction l as [|x l IH]; [done|]. rewrite sconcat_cons, has_ch_app, IH. done. Qed.
(** A file made of lines. *)
Lemma open_lines (l : list string) : (∀ x, x ∈ l → one_line x) →
  open_r (sconcat (map (λ x, x ++ nl) l)) = (false, map (λ x, x ++ nl) l).
Proof.
  intros H. unfold open_r. rewrite univ_no_cr.
  - f_equal. induction l as [|x l IH]; [done|]. cbn [map]. rewrite sconcat_cons, app_assoc_s, file_lines_app.
    + f_equal. apply IH. intros; apply H. by right.
    + apply H. by left.
  - rewrite has_ch_sconcat. apply not_true_iff_false. rewrite existsb_exists. intros (y & Hy & Hc).
    apply in_map_iff in Hy as (x & <- & Hx). rewrite has_ch_app in Hc.
    apply elem_of_list_In, H in Hx as [_ Hx]. rewrite Hx in Hc. done.
Qed.

(** ** Numbers *)
Lemma digit_val_char (d : N) : (d < 10)%N → digit_val (pretty_N_char d) = Some (Z.of_N d).
Proof.
  intros H.
  assert (d = 0 ∨ d = 1 ∨ d = 2 ∨ d = 3 ∨ d = 4 ∨ d = 5 ∨ d = 6 ∨ d = 7 ∨ d = 8 ∨ d = 9)%N as E by lia.
  destruct_or! E; subst d; done.
Qed.
Lemma pretty_N_go_spec x s : ∃ m, ∀ acc b,
  int_digits acc b (pretty_N_go x s) = int_digits (acc * m + Z.of_N x)%Z (bool_decide (x ≠ 0%N) || b) s.
Proof.
  revert s. induction (N.lt_wf_0 x) as [x _ IH]; intros s.
  destruct (decide (x = 0)%N) as [->|Hx].
  - exists 1%Z. intros. rewrite pretty_N_go_0. f_equal. lia.
  - destruct (IH (x `div` 10)%N) with (s := String (pretty_N_char (x `mod` 10)) s) as (m & Hk).
    { apply N.div_lt; lia. }
    exists (m * 10)%Z. intros acc b. rewrite pretty_N_go_step by lia. rewrite Hk.
    cbn [int_digits]. rewrite digit_val_char by (apply N.mod_lt; lia).
    f_equal.
    + pose proof (N.div_mod x 10 ltac:(lia)) as E.
      assert (Z.of_N x = 10 * Z.of_N (x `div` 10) + Z.of_N (x `mod` 10))%Z by lia. lia.
    + by rewrite bool_decide_true.
Qed.
Lemma pretty_N_digits (x : N) : int_digits 0 false (pretty x) = Ok (Z.of_N x).
Proof.
  unfold pretty, pretty_N. case_decide as Hx; [subst; done|].
  destruct (pretty_N_go_spec x "") as (m & Hm). rewrite Hm. rewrite bool_decide_true by done. done.
Qed.
Fixpoint all_digits (s : string) : bool :=
  match s with EmptyString => true | String a s' => (if digit_val a then true else false) && all_digits s' end.
Lemma pretty_N_go_all x s : all_digits s = true → all_digits (pretty_N_go x s) = true.
Proof.
  revert s. induction (N.lt_wf_0 x) as [x _ IH]; intros s Hs.
  destruct (decide (x = 0)%N) as [->|Hx]; [by rewrite pretty_N_go_0|].
  rewrite pretty_N_go_step by lia. apply IH; [apply N.div_lt; lia|]. cbn [all_digits].
  rewrite digit_val_char by (apply N.mod_lt; lia). done.
Qed.
Lemma pretty_N_all (x : N) : all_digits (pretty x) = true.
Proof. unfold pretty, pretty_N. case_decide; [done|]. by apply pretty_N_go_all. Qed.
Lemma digit_facts a d : digit_val a = Some d → is_space a = false ∧ a ≠ lf ∧ a ≠ cr ∧ a ≠ "-"%char ∧ a ≠ "+"%char.
Proof. destruct a as [[] [] [] [] [] [] [] []]; cbn; intros [=]; repeat split; done. Qed.
Lemma all_digits_no_space s : all_digits s = true → no_space s = true.
Proof.
  induction s as [|a s IH]; [done|]. cbn [all_digits no_space]. intros [H1 H2]%andb_true_iff.
  destruct (digit_val a) eqn:E; [|done]. apply digit_facts in E as (-> & _). by apply IH.
Qed.
Lemma all_digits_line s : all_digits s = true → one_line s.
Proof.
  unfold one_line. induction s as [|a s IH]; [done|]. cbn [all_digits has_ch]. intros [H1 H2]%andb_true_iff.
  destruct (digit_val a) eqn:E; [|done]. apply digit_facts in E as (_ & ? & ? & _).
  rewrite !bool_decide_false by done. by apply IH.
Qed.
Lemma py_int_digits s z : all_digits s = true → int_digits 0 false s = Ok z → py_int s = Ok z.
Proof.
  intros Hs H. unfold py_int. rewrite strip_no_space by by apply all_digits_no_space.
  destruct s as [|a s]; [done|]. cbn [all_digits] in Hs. apply andb_true_iff in Hs as [H1 H2].
  destruct (digit_val a) eqn:E; [|done]. apply digit_facts in E as (_ & _ & _ & ? & ?).
  rewrite !decide_False by done. done.
Qed.
Lemma pretty_nat_N (n : nat) : pretty n = pretty (N.of_nat n).
Proof. done. Qed.
Lemma py_int_nat (n : nat) : py_int (pretty n) = Ok (Z.of_nat n).
Proof. rewrite pretty_nat_N. apply py_int_digits; [apply pretty_N_all|]. rewrite pretty_N_digits. f_equal. lia. Qed.
Lemma pretty_nat_line (n : nat) : one_line (pretty n) ∧ no_space (pretty n) = true.
Proof. rewrite pretty_nat_N. split; [apply all_digits_line|apply all_digits_no_space]; apply pretty_N_all. Qed.
Lemma pretty_int_line (z : Z) : one_line (pretty z) ∧ no_space (pretty z) = true.
Proof.
  assert (∀ n : N, one_line (pretty n) ∧ no_space (pretty n) = true) as H.
  { intros n. split; [apply all_digits_line|apply all_digits_no_space]; apply pretty_N_all. }
  destruct z; [done|apply (H (N.pos p))|]. change (pretty (Z.neg p)) with (String "-" (pretty (N.pos p))).
  destruct (H (N.pos p)) as [[H1 H2] H3]. split; [split|]; cbn; rewrite ?H1, ?H2, ?H3; done.
Qed.
Lemma py_int_Z (z : Z) : py_int (pretty z) = Ok z.
Proof.
  destruct z; [done|..].
  - change (pretty (Z.pos p)) with (pretty (N.pos p)). apply py_int_digits; [apply pretty_N_all|apply pretty_N_digits].
  - unfold py_int. rewrite strip_no_space by apply pretty_int_line.
    change (pretty (Z.neg p)) with (String "-" (pretty (N.pos p))). cbv beta iota. rewrite decide_True by done.
    by rewrite pretty_N_digits.
Qed.
Lemma pystr_line_int (z : Z) : one_line (pystr (NInt z)) ∧ strip (pystr (NInt z)) = pystr (NInt z).
Proof. destruct (pretty_int_line z) as [H1 H2]. split; [done|]. by apply strip_no_space. Qed.

(** ** Names and rows *)
Lemma strip_line s : strip (s ++ nl) = strip s.
Proof. by apply strip_space_r. Qed.
Lemma strip_nl : strip nl = "".
Proof. done. Qed.
Lemma read_names_ok (ev : nat → string → res name) (l : list name) k f :
  (∀ i x, l !! i = Some x → eval_name (ev (k + i)%nat) (pystr x) = Ok x ∧ strip (pystr x) = pystr x) →
  read_names ev k (length l) (map (λ x, (pystr x ++ nl)%string) l ++ f)%list = Ok (l, f).
Proof.
  revert k. induction l as [|x l IH]; intros k H; [done|].
  cbn [length map read_names app readline]. rewrite strip_line.
  destruct (H 0%nat x eq_refl) as [H1 H2]. rewrite H2. rewrite Nat.add_0_r in H1. rewrite H1.
  cbn [mbind res_bind]. rewrite IH; [done|]. intros i y Hi. rewrite Nat.add_succ_comm. by apply (H (S i)).
Qed.
Lemma cross_chars r : chars (join "" (map cross_char r)) = map (λ b : bool, if b then "X" else ".")%char r.
Proof.
  induction r as [|b r IH]; [done|]. cbn [map]. rewrite <-IH.
  change (join "" (cross_char b :: map cross_char r)) with (sconcat (cross_char b :: map cross_char r)).
  rewrite sconcat_cons. by destruct b.
Qed.
Lemma cross_no_space r : no_space (join "" (map cross_char r)) = true ∧ one_line (join "" (map cross_char r)).
Proof.
  induction r as [|b r IH]; [done|]. cbn [map].
  change (join "" (cross_char b :: map cross_char r)) with (sconcat (cross_char b :: map cross_char r)).
  rewrite sconcat_cons. unfold sconcat. destruct IH as [IH1 [IH2 IH3]].
  destruct b; unfold one_line;
    [change (cross_char true) with "X"|change (cross_char false) with "."]; rewrite app_cons_s, app_nil_l_s;
    cbn [no_space has_ch]; rewrite IH1, IH2, IH3; done.
Qed.
Lemma read_row_cross r : read_row (join "" (map cross_char r) ++ nl) = r.
Proof.
  unfold read_row. rewrite strip_line, strip_no_space by apply cross_no_space. rewrite cross_chars, map_map.
  induction r as [|b r IH]; [done|]. cbn [map]. rewrite IH. by destruct b.
Qed.
Lemma read_rows_ok (t : list (list bool)) f :
  read_rows (length t) (map (λ r, (join "" (map cross_char r) ++ nl)%string) t ++ f)%list = (t, f).
Proof.
  induction t as [|r t IH]; [done|]. cbn [length map read_rows app readline]. rewrite IH. cbn [fst snd].
  by rewrite read_row_cross.
Qed.
