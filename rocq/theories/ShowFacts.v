(** * Facts about the printing of concepts *)
From Coq Require Import Ascii.
From stdpp Require Import pretty.
From Verif Require Import Py PyFacts Spec SpecFacts ContextModel StrModel StrSpec StrFacts FileModel CxtFileModel FileSpec FileFacts
  LatticeModel NorrisFacts LatticeFacts ShowModel.
Local Open Scope string_scope.

Fixpoint all_char (P : ascii → bool) (s : string) : bool :=
  match s with EmptyString => true | String a s' => P a && all_char P s' end.
Definition stops (P : ascii → bool) (s : string) : Prop :=
  match s with EmptyString => True | String a _ => P a = false end.
Lemma span_inj P : ∀ s1 s2 r1 r2, all_char P s1 = true → all_char P s2 = true → stops P r1 → stops P r2 →
  (s1 ++ r1 = s2 ++ r2)%string → s1 = s2 ∧ r1 = r2.
Proof.
  induction s1 as [|a s1 IH]; intros [|b s2] r1 r2 H1 H2 H3 H4 E.
  - done.
  - exfalso. change (r1 = String b (s2 ++ r2)) in E. rewrite E in H3. cbn in H2, H3. rewrite H3 in H2. done.
  - exfalso. change (String a (s1 ++ r1) = r2) in E. rewrite <- E in H4. cbn in H1, H4. rewrite H4 in H1. done.
  - cbn [all_char] in *. apply andb_true_iff in H1 as [_ H1], H2 as [_ H2]. injection E as -> E.
    destruct (IH s2 r1 r2) as [-> ->]; done.
Qed.
Definition num_char (a : ascii) : bool := (if digit_val a then true else false) || bool_decide (a = "-"%char).
Lemma pretty_num (z : Z) : all_char num_char (pretty z) = true.
Proof.
  assert (∀ s, all_digits s = true → all_char num_char s = true) as H.
  { induction s as [|a s IH]; [done|]. cbn [all_digits all_char]. intros [H1 H2]%andb_true_iff. unfold num_char.
    rewrite H1. simpl. by apply IH. }
  destruct z; [done|apply H, (pretty_N_all (N.pos p))|].
  change (pretty (Z.neg p)) with (String "-" (pretty (N.pos p))). cbn [all_char]. apply andb_true_iff. split; [done|].
  apply H, pretty_N_all.
Qed.
Lemma pretty_ne (z : Z) : pretty z ≠ EmptyString.
Proof. intros E. pose proof (py_int_Z z) as H. rewrite E in H. discriminate H. Qed.
Lemma plain_noquote s : plain s = true → all_char (λ a, negb (bool_decide (a = "'"%char))) s = true.
Proof.
  induction s as [|a s IH]; [done|]. cbn [plain all_char]. intros [H1 H2]%andb_true_iff. apply andb_true_iff. split; [|by apply IH].
  apply negb_true_iff, bool_decide_eq_false. intros ->. done.
Qed.
(** What may follow a name in a list. *)
Definition ends (s : string) : Prop := ∃ r, s = String "," r ∨ s = String "]" r.
Lemma name_repr_inj x y sx sy r r' : name_repr x = Ok sx → name_repr y = Ok sy → ends r → ends r' →
  (sx ++ r = sy ++ r')%string → x = y ∧ r = r'.
Proof.
  intros Hx Hy Hr Hr' E.
  assert (∀ s, ends s → stops num_char s) as Hst by (intros s [t [-> | ->]]; done).
  assert (∀ (z : Z) s t, (pretty z ++ s)%string = String "'" t → False) as Hnq.
  { intros z s t H. pose proof (pretty_num z) as Hz. pose proof (pretty_ne z) as Hne. destruct (pretty z) as [|a u]; [done|].
    injection H as -> _. done. }
  destruct x as [s|z], y as [s'|z']; simpl in Hx, Hy.
  - destruct (plain s) eqn:P1; [|done]. destruct (plain s') eqn:P2; [|done]. injection Hx as <-. injection Hy as <-.
    injection E as E. rewrite !app_assoc_s in E.
    destruct (span_inj (λ a, negb (bool_decide (a = "'"%char))) s s' ("'" ++ r) ("'" ++ r')) as [-> E'];
      [by apply plain_noquote|by apply plain_noquote|done|done|done|].
    injection E' as ->. done.
  - destruct (plain s); [|done]. injection Hx as <-. injection Hy as <-. exfalso. exact (Hnq _ _ _ (eq_sym E)).
  - destruct (plain s'); [|done]. injection Hx as <-. injection Hy as <-. exfalso. exact (Hnq _ _ _ E).
  - injection Hx as <-. injection Hy as <-.
    destruct (span_inj num_char (pretty z) (pretty z') r r') as [E1 ->]; [apply pretty_num|apply pretty_num|auto|auto|done|].
    split; [|done]. f_equal. pose proof (py_int_Z z) as H. rewrite E1, py_int_Z in H. congruence.
Qed.
Lemma name_repr_first x sx r : name_repr x = Ok sx → ∃ a t, (sx ++ r)%string = String a t ∧ a ≠ "]"%char.
Proof.
  destruct x as [s|z]; simpl.
  - destruct (plain s); [|done]. intros [= <-]. eexists _, _. split; [reflexivity|done].
  - intros [= <-]. pose proof (pretty_num z) as Hz. pose proof (pretty_ne z) as Hne. destruct (pretty z) as [|a u]; [done|].
    exists a, (u ++ r)%string. split; [done|]. intros ->. done.
Qed.
(** The items of a list, read one after the other. *)
Lemma items_inj : ∀ l k sl sk r r', mapM name_repr l = Ok sl → mapM name_repr k = Ok sk →
  (join ", " sl ++ "]" ++ r = join ", " sk ++ "]" ++ r')%string → l = k ∧ r = r'.
Proof.
  assert (∀ x l ss, mapM name_repr (x :: l) = Ok ss → ∃ s ss', name_repr x = Ok s ∧ mapM name_repr l = Ok ss' ∧ ss = s :: ss') as Hc.
  { intros x l ss. cbn [mapM]. destruct (name_repr x) as [s|]; [|done]. cbn [mbind res_bind].
    destruct (mapM name_repr l) as [ss'|]; [|done]. cbn. intros [= <-]. eauto. }
  assert (∀ l ss r, mapM name_repr l = Ok ss → ∀ s, ∃ e, ends e ∧ (join ", " (s :: ss) ++ "]" ++ r = s ++ e)%string ∧
    e = match ss with [] => ("]" ++ r)%string | _ => (", " ++ join ", " ss ++ "]" ++ r)%string end) as Hj.
  { intros l ss r _ s. destruct ss as [|t ss].
    - exists ("]" ++ r)%string. split; [by exists r; right|done].
    - eexists. split; [|split; [|reflexivity]]; [eexists; left; reflexivity|].
      rewrite (join_cons_ne ", " s (t :: ss)) by done. by rewrite !app_assoc_s. }
  induction l as [|x l IH]; intros [|y k] sl sk r r' H1 H2 E.
  - injection H1 as <-. injection H2 as <-. by injection E.
  - exfalso. injection H1 as <-. destruct (Hc _ _ _ H2) as (s & ss & E1 & E2 & ->).
    destruct (Hj k ss r' E2 s) as (e & _ & E3 & _). rewrite E3 in E.
    destruct (name_repr_first y s e E1) as (a & t & E4 & Ha). rewrite E4 in E. injection E as <- _. done.
  - exfalso. injection H2 as <-. destruct (Hc _ _ _ H1) as (s & ss & E1 & E2 & ->).
    destruct (Hj l ss r E2 s) as (e & _ & E3 & _). rewrite E3 in E.
    destruct (name_repr_first x s e E1) as (a & t & E4 & Ha). rewrite E4 in E. injection E as -> _. done.
  - destruct (Hc _ _ _ H1) as (s & ss & E1 & E2 & ->). destruct (Hc _ _ _ H2) as (s' & ss' & E1' & E2' & ->).
    destruct (Hj l ss r E2 s) as (e & He & E3 & Ee). destruct (Hj k ss' r' E2' s') as (e' & He' & E3' & Ee').
    rewrite E3, E3' in E. destruct (name_repr_inj x y s s' e e' E1 E1' He He' E) as [-> Eee].
    clear E E3 E3'. subst e e'.
    assert (l = k ∧ r = r') as [-> ->]; [|done].
    destruct ss as [|t ss], ss' as [|t' ss']; try done.
    + destruct l; [|destruct (Hc _ _ _ E2) as (? & ? & _ & _ & ?); done].
      destruct k; [|destruct (Hc _ _ _ E2') as (? & ? & _ & _ & ?); done]. by injection Eee.
    + apply (IH k (t :: ss) (t' :: ss') r r' E2 E2'). by injection Eee.
Qed.
Lemma list_repr_inj l k sl sk r r' : list_repr l = Ok sl → list_repr k = Ok sk → (sl ++ r = sk ++ r')%string → l = k ∧ r = r'.
Proof.
  unfold list_repr. destruct (mapM name_repr l) as [ss|] eqn:E1; [|done]. destruct (mapM name_repr k) as [ss'|] eqn:E2; [|done].
  cbn [mbind res_bind]. intros [= <-] [= <-] E. injection E as E. rewrite !app_assoc_s in E. by eapply items_inj.
Qed.
