From Coq Require Import Ascii.
From Verif Require Import Py PyFacts Spec ContextModel ClosureModel ClosureFacts StrModel ImpStrModel StrSpec.
Local Open Scope string_scope.

Lemma app_nil_r_s (s : string) : s ++ "" = s.
Proof. induction s as [|a s IH]; [done|]. change (String a (s ++ "") = String a s). by rewrite IH. Qed.
Lemma app_assoc_s (a b c : string) : (a ++ b) ++ c = a ++ b ++ c.
Proof. induction a as [|x a IH]; [done|]. change (String x ((a ++ b) ++ c) = String x (a ++ b ++ c)). by rewrite IH. Qed.
Lemma length_app_s (a b : string) : String.length (a ++ b) = (String.length a + String.length b)%nat.
Proof. induction a as [|x a IH]; [done|]. change (S (String.length (a ++ b)) = S (String.length a + String.length b)). by rewrite IH. Qed.
Lemma app_cons_s x (a b : string) : String x a ++ b = String x (a ++ b).
Proof. done. Qed.

(** ** strip *)
Lemma rstrip_cons a s : rstrip (String a s) = match rstrip s with
  | "" => if is_space a then "" else String a "" | r => String a r end.
Proof. done. Qed.
Lemma strip_space_l a s : is_space a = true → strip (String a s) = strip s.
Proof. intros H. unfold strip. simpl. by rewrite H. Qed.
Lemma lstrip_space_l a s : is_space a = true → lstrip (String a s) = lstrip s.
Proof. intros H. simpl. by rewrite H. Qed.
Lemma rstrip_space_r a s : is_space a = true → rstrip (s ++ String a "") = rstrip s.
Proof.
  intros H. induction s as [|b s IH].
  - change (rstrip (String a "") = ""). simpl. by rewrite H.
  - rewrite app_cons_s, !rstrip_cons, IH. done.
Qed.
Lemma lstrip_app s t : lstrip s ≠ "" → lstrip (s ++ t) = lstrip s ++ t.
Proof.
  induction s as [|b s IH]; [done|]. rewrite app_cons_s. simpl. destruct (is_space b); [apply IH|done].
Qed.
Lemma lstrip_app_empty s t : lstrip s = "" → lstrip (s ++ t) = lstrip t.
Proof.
  induction s as [|b s IH]; [done|]. rewrite app_cons_s. simpl. destruct (is_space b); [apply IH|done].
Qed.
Lemma strip_space_r a s : is_space a = true → strip (s ++ String a "") = strip s.
Proof.
  intros H. unfold strip. destruct (decide (lstrip s = "")) as [E|E].
  - rewrite lstrip_app_empty by done. rewrite E. simpl. by rewrite H.
  - rewrite lstrip_app by done. by apply rstrip_space_r.
Qed.
(** A string without white space is unchanged. *)
Fixpoint no_space (s : string) : bool :=
  match s with "" => true | String a s' => negb (is_space a) && no_space s' end.
Lemma rstrip_no_space s : no_space s = true → rstrip s = s.
Proof.
  induction s as [|a s IH]; [done|]. cbn [no_space]. rewrite andb_true_iff, negb_true_iff. intros [Ha Hs].
  rewrite rstrip_cons, (IH Hs), Ha. by destruct s.
Qed.
Lemma strip_no_space s : no_space s = true → strip s = s.
Proof.
  intros H. unfold strip. destruct s as [|a s]; [done|]. cbn [no_space] in H. pose proof H as H'.
  rewrite andb_true_iff, negb_true_iff in H. destruct H as [Ha _]. cbn [lstrip]. rewrite Ha. by apply rstrip_no_space.
Qed.

(** ** split *)
Lemma prefix_app sep s : String.prefix sep (sep ++ s) = true.
Proof. induction sep as [|a sep IH]; [by destruct s|]. change (String.prefix (String a sep) (String a (sep ++ s)) = true). simpl. by destruct (ascii_dec a a). Qed.
Lemma prefix_spec sep s : String.prefix sep s = true → ∃ t, s = sep ++ t.
Proof.
  revert s. induction sep as [|a sep IH]; intros s H; [by exists s|]. destruct s as [|b s]; [done|]. simpl in H.
  destruct (ascii_dec a b) as [->|]; [|done]. apply IH in H as [t ->]. by exists t.
Qed.
Lemma split_skip sep s t : split_from sep (String.length s) (s ++ t) = split_from sep 0 t.
Proof.
  revert t. induction s as [|a s IH]; intros t; [done|]. rewrite app_cons_s. cbn [String.length split_from]. apply IH.
Qed.
Lemma split_hit a sep t : py_split (String a sep) (String a sep ++ t) = "" :: py_split (String a sep) t.
Proof.
  unfold py_split. pose proof (prefix_app (String a sep) t) as H. rewrite app_cons_s in *. cbn [split_from]. rewrite H.
  f_equal. cbn [String.length].
  replace (S (String.length sep) - 1)%nat with (String.length sep) by lia. apply split_skip.
Qed.
(** No occurrence starts inside [p] when [p] is followed by [r]. *)
Fixpoint no_start (sep p r : string) : bool :=
  match p with "" => true | String a p' => negb (String.prefix sep (p ++ r)) && no_start sep p' r end.
Lemma split_past sep p r : no_start sep p r = true → ∀ x l, py_split sep r = x :: l → py_split sep (p ++ r) = (p ++ x) :: l.
Proof.
  intros H x l Hr. induction p as [|a p IH]; [done|]. cbn [no_start] in H. rewrite andb_true_iff, negb_true_iff in H. destruct H as [H1 H2].
  specialize (IH H2). rewrite app_cons_s in *. unfold py_split in *. cbn [split_from]. rewrite H1, IH. done.
Qed.
Lemma split_nil sep : py_split sep "" = [""].
Proof. done. Qed.
Lemma split_ne sep k s : split_from sep k s ≠ [].
Proof.
  revert k. induction s as [|a s IH]; intros k; [done|]. cbn [split_from]. destruct k as [|k]; [|apply IH].
  destruct (String.prefix sep (String a s)); [done|]. specialize (IH 0). by destruct (split_from sep 0 s).
Qed.
Lemma contains_cons sep a s : str_contains sep (String a s) ↔ String.prefix sep (String a s) = true ∨ str_contains sep s.
Proof.
  unfold str_contains. split.
  - intros (x & y & E). destruct x as [|b x].
    + left. change ("" ++ sep ++ y) with (sep ++ y) in E. rewrite E. apply prefix_app.
    + right. rewrite app_cons_s in E. injection E as -> E. eauto.
  - intros [H|(x & y & ->)].
    + apply prefix_spec in H as [t ->]. exists "", t. done.
    + exists (String a x), y. done.
Qed.
Lemma no_start_last a sep p r b : ¬ str_contains (String a sep) p → (∀ t, ¬ str_contains (String b t) (String a sep)) →
  no_start (String a sep) p (String b r) = true.
Proof.
  intros Hc Hb. induction p as [|x p IH]; [done|]. cbn [no_start]. rewrite contains_cons in Hc.
  rewrite andb_true_iff, negb_true_iff. split; [|apply IH; tauto].
  apply not_true_iff_false. intros H. apply prefix_spec in H as [t E].
  (* the occurrence ends inside p or runs over b *)
  assert (∀ (u v w : string), u ++ String b r = v ++ w → (∃ w', u = v ++ w') ∨ ∃ t, v = u ++ String b t) as Hsplit.
  { clear. induction u as [|c u IH]; intros v w E.
    - destruct v as [|d v]; [by left; exists ""|]. right. change (String b r = String d (v ++ w)) in E. injection E as -> E. by exists v.
    - destruct v as [|d v]; [by left; exists (String c u)|]. rewrite !app_cons_s in E. injection E as -> E.
      destruct (IH v w E) as [[w' ->]|[t ->]]; [left; by exists w'|right; by exists t]. }
  destruct (Hsplit _ _ _ E) as [[w' E']|[t' E']].
  - apply Hc. left. rewrite E'. apply prefix_app.
  - apply (Hb t'). rewrite E'. exists (String x p), "". by rewrite app_nil_r_s.
Qed.
Lemma no_start_nil sep p : ¬ str_contains sep p → no_start sep p "" = true.
Proof.
  intros Hc. induction p as [|x p IH]; [done|]. cbn [no_start]. rewrite contains_cons in Hc. rewrite app_nil_r_s.
  rewrite andb_true_iff, negb_true_iff. split; [|apply IH; tauto]. apply not_true_iff_false. tauto.
Qed.
Lemma split_none sep p : ¬ str_contains sep p → py_split sep p = [p].
Proof.
  intros H. rewrite <-(app_nil_r_s p) at 1. rewrite (split_past sep p "" (no_start_nil sep p H) "" []); [|done]. by rewrite app_nil_r_s.
Qed.

(** ** Joining and splitting at ", " *)
Lemma split_comma_cons x r : ¬ str_contains "," x → py_split "," (x ++ String "," r) = x :: py_split "," r.
Proof.
  intros H. assert (no_start "," x (String "," r) = true) as Hn.
  { induction x as [|a x IH]; [done|]. cbn [no_start]. rewrite contains_cons in H. rewrite andb_true_iff, negb_true_iff.
    split; [|apply IH; tauto]. apply not_true_iff_false. intros Hp. apply H. left.
    rewrite app_cons_s in Hp. clear -Hp. cbn [String.prefix] in *. destruct (ascii_dec "," a); [by destruct x|done]. }
  rewrite (split_past "," x (String "," r) Hn "" (py_split "," r)); [by rewrite app_nil_r_s|].
  exact (split_hit "," "" r).
Qed.

(** ** No "=>" in a joined list *)
Lemma contains_app_sep a sep x b r : (∀ t, ¬ str_contains (String b t) (String a sep)) →
  ¬ str_contains (String a sep) x → ¬ str_contains (String a sep) r → ¬ str_contains (String a sep) (x ++ String b r).
Proof.
  intros Hb Hx Hr. pose proof (no_start_last a sep x r b Hx Hb) as Hn. clear Hx.
  induction x as [|c x IH].
  - change ("" ++ String b r) with (String b r). rewrite contains_cons. intros [H|H]; [|done].
    apply prefix_spec in H as [t E]. rewrite app_cons_s in E. injection E as -> _. apply (Hb sep). exists "", "". by rewrite app_nil_r_s.
  - cbn [no_start] in Hn. rewrite andb_true_iff, negb_true_iff in Hn. destruct Hn as [Hn1 Hn2].
    rewrite app_cons_s in *. rewrite contains_cons. intros [H|H]; [by rewrite H in Hn1|by apply IH].
Qed.
Lemma arrow_char (b : ascii) t : b ≠ "="%char → b ≠ ">"%char → ¬ str_contains (String b t) "=>".
Proof.
  intros H1 H2. rewrite !contains_cons. intros [H|[H|(x & y & E)]].
  - apply prefix_spec in H as [u E]. rewrite app_cons_s in E. by injection E as <-.
  - apply prefix_spec in H as [u E]. rewrite app_cons_s in E. by injection E as <-.
  - destruct x; done.
Qed.
Lemma arrow_join l : (∀ x, x ∈ l → ¬ str_contains "=>" x) → ¬ str_contains "=>" (join ", " l).
Proof.
  induction l as [|x l IH]; intros Hl.
  { intros (u & v & E). cbn [join] in E. by destruct u. }
  destruct l as [|y l]; [apply Hl; by left|].
  change (join ", " (x :: y :: l)) with (x ++ String "," ("" ++ String " " (join ", " (y :: l)))).
  apply contains_app_sep; [by intros t; apply arrow_char|by apply Hl; left|].
  apply contains_app_sep; [by intros t; apply arrow_char| |].
  - intros (u & v & E). by destruct u.
  - apply IH. intros z Hz. apply Hl. by right.
Qed.
Lemma split_arrow P Q : ¬ str_contains "=>" P → ¬ str_contains "=>" Q →
  py_split "=>" (P ++ " => " ++ Q) = [P ++ " "; " " ++ Q].
Proof.
  intros HP HQ.
  assert (¬ str_contains "=>" (P ++ String " " "")) as HP'.
  { apply contains_app_sep; [by intros t; apply arrow_char|done|]. intros (u & v & E). by destruct u. }
  assert (¬ str_contains "=>" (" " ++ Q)) as HQ'.
  { change (" " ++ Q) with ("" ++ String " " Q). apply contains_app_sep; [by intros t; apply arrow_char| |done]. intros (u & v & E). by destruct u. }
  assert (py_split "=>" (String " " ("=>" ++ " " ++ Q)) = [" "; " " ++ Q]) as E1.
  { change (String " " ("=>" ++ " " ++ Q)) with (" " ++ "=>" ++ " " ++ Q).
    rewrite (split_past "=>" " " ("=>" ++ " " ++ Q)) with (x := "") (l := [" " ++ Q]); [done|done|].
    change "=>" with (String "=" ">") at 2. rewrite split_hit. by rewrite split_none. }
  change (" => " ++ Q) with (String " " ("=>" ++ " " ++ Q)).
  rewrite (split_past "=>" P _) with (x := " ") (l := [" " ++ Q]); [done| |done].
  apply no_start_last; [done|]. by intros t; apply arrow_char.
Qed.

(** ** str2imp *)
Definition clean (x : string) : Prop := ¬ str_contains "," x ∧ ¬ str_contains "=>" x ∧ strip x = x.
Lemma split_join l : l ≠ [] → (∀ x, x ∈ l → ¬ str_contains "," x) →
  ∀ pre post, pre = "" ∨ pre = " " → post = "" ∨ post = " " →
  map strip (py_split "," (pre ++ join ", " l ++ post)) = map strip l.
Proof.
  assert (∀ pre x, pre = "" ∨ pre = " " → ¬ str_contains "," x → ¬ str_contains "," (pre ++ x)) as Hpre.
  { intros pre x [-> | ->] Hx; [done|]. change (" " ++ x) with (String " " x). rewrite contains_cons. intros [H|H]; done. }
  assert (∀ pre x, pre = "" ∨ pre = " " → strip (pre ++ x) = strip x) as Hsp.
  { intros pre x [-> | ->]; [done|]. change (" " ++ x) with (String " " x). by apply strip_space_l. }
  induction l as [|x l IH]; [done|]. intros _ Hl pre post H1 H2. assert (¬ str_contains "," x) as Hx by (apply Hl; by left).
  destruct l as [|y l].
  - cbn [join]. rewrite split_none.
    + cbn [map]. f_equal. rewrite Hsp by done. destruct H2 as [-> | ->]; [by rewrite app_nil_r_s|]. by apply strip_space_r.
    + apply Hpre; [done|]. destruct H2 as [-> | ->]; [by rewrite app_nil_r_s|].
      change (x ++ " ") with (x ++ String " " ""). apply contains_app_sep; [|done|].
      * intros t. rewrite contains_cons. intros [H|(u & v & E)]; [done|]. by destruct u.
      * intros (u & v & E). by destruct u.
  - change (join ", " (x :: y :: l)) with (x ++ ", " ++ join ", " (y :: l)).
    rewrite !app_assoc_s, <-(app_assoc_s pre x).
    change (", " ++ join ", " (y :: l) ++ post) with (String "," (" " ++ join ", " (y :: l) ++ post)).
    rewrite split_comma_cons by (by apply Hpre). change (map strip (x :: y :: l)) with (strip x :: map strip (y :: l)).
    cbn [map]. rewrite Hsp by done. f_equal. change (strip y :: map strip l) with (map strip (y :: l)).
    apply IH; [done|intros z Hz; apply Hl; by right|by right|done].
Qed.
Lemma str2set_join (l : list name) pre post : l ≠ [] → (∀ x, x ∈ l → ∃ s, x = NStr s ∧ clean s) →
  (pre = "" ∨ pre = " ") → (post = "" ∨ post = " ") → 
  str2set (pre ++ join ", " (map pystr l) ++ post) = list_to_set l.
Proof.
  intros Hne Hl H1 H2. unfold str2set. f_equal.
  rewrite <-(map_map strip NStr). rewrite split_join; [|by destruct l| |done|done].
  - rewrite !map_map. rewrite <-(map_id l) at 2. apply map_ext_in. intros x Hx%elem_of_list_In.
    destruct (Hl x Hx) as (s & -> & _ & _ & Hs). simpl. by rewrite Hs.
  - intros x Hx. apply elem_of_list_fmap in Hx as (y & -> & Hy). destruct (Hl y Hy) as (s & -> & Hs & _). done.
Qed.
Lemma str2imp_repr (i : fimp) : i.1 ≠ ∅ → conclusion i ≠ ∅ →
  (∀ x, x ∈ i.1 ∪ i.2 → ∃ s, x = NStr s ∧ clean s) →
  ∃ s, imp_repr i = Ok s ∧ str2imp s = Ok (i.1, conclusion i).
Proof.
  intros H1 H2 Hcl.
  assert (∀ X : gset name, X ⊆ i.1 ∪ i.2 → ∃ k, py_sorted (elements X) = Ok k ∧ list_to_set k = X ∧ ∀ x, x ∈ k → ∃ s, x = NStr s ∧ clean s) as Hs.
  { intros X HX. destruct (py_sorted_final (elements X)) as [H _]. destruct H as (k & Hk & Hp & _).
    - apply comparable_spec. left. intros x Hx%elem_of_elements%HX. by destruct (Hcl x Hx) as (s & -> & _).
    - exists k. split; [done|]. split.
      + apply set_eq. intros x. rewrite elem_of_list_to_set, Hp. apply elem_of_elements.
      + intros x Hx. apply Hcl, HX, elem_of_elements. by rewrite <-Hp. }
  destruct (Hs i.1) as (p & Ep & Sp & Cp); [clear; set_solver|].
  destruct (Hs (conclusion i)) as (q & Eq & Sq & Cq); [unfold conclusion; clear; set_solver|].
  unfold imp_repr. rewrite Ep, Eq. cbn [mbind res_bind]. eexists. split; [done|]. unfold str2imp.
  assert (∀ k, (∀ x : name, x ∈ k → ∃ s, x = NStr s ∧ clean s) → ¬ str_contains "=>" (join ", " (map pystr k))) as Ha.
  { intros k Hk. apply arrow_join. intros x Hx. apply elem_of_list_fmap in Hx as (y & -> & Hy). by destruct (Hk y Hy) as (s & -> & _ & ? & _). }
  rewrite split_arrow by (by apply Ha).
  assert (p ≠ []) by (intros ->; by apply H1; rewrite <-Sp). assert (q ≠ []) by (intros ->; by apply H2; rewrite <-Sq).
  pose proof (str2set_join p "" " ") as E1. pose proof (str2set_join q " " "") as E2.
  rewrite app_nil_r_s in E2. change ("" ++ join ", " (map pystr p) ++ " ") with (join ", " (map pystr p) ++ " ") in E1.
  rewrite E1, E2 by (auto || done). by rewrite Sp, Sq.
Qed.
Lemma str2imp_ValueError s : length (py_split "=>" s) ≠ 2%nat → str2imp s = Err ValueError.
Proof. unfold str2imp. by destruct (py_split "=>" s) as [|? [|? [|? ?]]]. Qed.

(** ** What a split is *)
Lemma leftmost sep s : sep ≠ "" → str_contains sep s →
  ∃ p t, s = p ++ sep ++ t ∧ no_start sep p (sep ++ t) = true ∧ ¬ str_contains sep p.
Proof.
  intros Hne. induction s as [|a s IH]; intros Hc.
  { exfalso. destruct Hc as (x & y & E). destruct x; [|done]. by destruct sep. }
  destruct (String.prefix sep (String a s)) eqn:E.
  - apply prefix_spec in E as [t ->]. exists "", t. split; [done|]. split; [done|]. intros (x & y & E). destruct x; [|done]. by destruct sep.
  - apply contains_cons in Hc as [Hc|Hc]; [by rewrite Hc in E|]. destruct (IH Hc) as (p & t & -> & Hn & Hp).
    exists (String a p), t. split; [done|]. split.
    + cbn [no_start]. rewrite app_cons_s, E. done.
    + rewrite contains_cons. intros [H|H]; [|done]. apply prefix_spec in H as [u Eu].
      apply not_true_iff_false in E. apply E. change (String a (p ++ sep ++ t)) with (String a p ++ sep ++ t). rewrite Eu, app_assoc_s. apply prefix_app.
Qed.
Lemma split_leftmost a sep p t : no_start (String a sep) p (String a sep ++ t) = true →
  py_split (String a sep) (p ++ String a sep ++ t) = p :: py_split (String a sep) t.
Proof. intros H. rewrite (split_past _ p _ H "" (py_split (String a sep) t)); [by rewrite app_nil_r_s|]. apply split_hit. Qed.
Lemma join_cons_ne sep x l : l ≠ [] → join sep (x :: l) = x ++ sep ++ join sep l.
Proof. by destruct l. Qed.
Lemma split_spec a sep s : join (String a sep) (py_split (String a sep) s) = s ∧
  ∀ x, x ∈ py_split (String a sep) s → ¬ str_contains (String a sep) x.
Proof.
  remember (String.length s) as n eqn:En. revert s En. induction (lt_wf n) as [n _ IH]. intros s ->.
  destruct (String.prefix (String a sep) "") eqn:Edum; [done|]. clear Edum.
  assert ((∃ p t, s = p ++ String a sep ++ t ∧ no_start (String a sep) p (String a sep ++ t) = true ∧ ¬ str_contains (String a sep) p)
    ∨ ¬ str_contains (String a sep) s) as [(p & t & -> & Hn & Hp)|Hno].
  { clear IH. induction s as [|b s IH]; [right; intros (x & y & E); by destruct x|].
    destruct (String.prefix (String a sep) (String b s)) eqn:E.
    - left. apply leftmost; [done|]. apply contains_cons. by left.
    - destruct IH as [(p & t & -> & _ & _)|Hn].
      + left. apply leftmost; [done|]. apply contains_cons. right. by exists p, t.
      + right. rewrite contains_cons. intros [H|H]; [by rewrite H in E|done]. }
  - rewrite split_leftmost by done.
    destruct (IH (String.length t)) with (s := t) as [H1 H2]; [|done|].
    { rewrite !length_app_s. cbn [String.length]. lia. }
    split.
    + rewrite join_cons_ne by apply split_ne. by rewrite H1.
    + intros x [->|Hx]%elem_of_cons; [done|by apply H2].
  - rewrite split_none by done. split; [done|]. by intros x ->%elem_of_list_singleton.
Qed.
Lemma split_comma_join l : l ≠ [] → (∀ x, x ∈ l → ¬ str_contains "," x) → py_split "," (join "," l) = l.
Proof.
  induction l as [|x l IH]; [done|]. intros _ Hl. destruct l as [|y l].
  - cbn [join]. apply split_none, Hl. by left.
  - rewrite join_cons_ne by done. change ("," ++ join "," (y :: l)) with (String "," (join "," (y :: l))).
    rewrite split_comma_cons by (apply Hl; by left). f_equal. apply IH; [done|]. intros z Hz. apply Hl. by right.
Qed.
Lemma split_arrow2 P Q : ¬ str_contains "=>" P → ¬ str_contains "=>" Q → py_split "=>" (P ++ "=>" ++ Q) = [P; Q].
Proof.
  intros HP HQ. change "=>" with (String "=" ">"). rewrite split_leftmost; [by rewrite split_none|].
  clear HQ. induction P as [|a P IH]; [done|]. rewrite contains_cons in HP. cbn [no_start]. rewrite andb_true_iff, negb_true_iff.
  split; [|apply IH; tauto]. apply not_true_iff_false. intros H. apply HP. left. clear -H.
  rewrite app_cons_s in H. cbn [String.prefix] in *. destruct (ascii_dec "=" a); [|done]. destruct P as [|b P]; [done|].
  rewrite app_cons_s in H. cbn [String.prefix] in *. destruct (ascii_dec ">" b); [|done]. by destruct P.
Qed.
Lemma str2imp_spec s i : str2imp s = Ok i ↔ ∃ ps qs, ps ≠ [] ∧ qs ≠ [] ∧ (∀ x, x ∈ (ps ++ qs)%list → ¬ str_contains "," x) ∧
  ¬ str_contains "=>" (join "," ps) ∧ ¬ str_contains "=>" (join "," qs) ∧ s = join "," ps ++ "=>" ++ join "," qs ∧
  i = (list_to_set (map (λ x, NStr (strip x)) ps), list_to_set (map (λ x, NStr (strip x)) qs)).
Proof.
  split.
  - intros H. unfold str2imp in H. destruct (split_spec "=" ">" s) as [H1 H2].
    destruct (py_split "=>" s) as [|P [|Q [|? ?]]] eqn:Es; try done. injection H as <-.
    destruct (split_spec "," "" P) as [HP1 HP2]. destruct (split_spec "," "" Q) as [HQ1 HQ2].
    exists (py_split "," P), (py_split "," Q). split; [apply split_ne|]. split; [apply split_ne|]. split.
    { intros x [Hx|Hx]%elem_of_app; auto. }
    rewrite HP1, HQ1. split; [apply H2; by left|]. split; [apply H2; by right; left|]. split; [|done].
    rewrite <-H1. done.
  - intros (ps & qs & Hp & Hq & Hc & H1 & H2 & -> & ->). unfold str2imp. rewrite split_arrow2 by done.
    unfold str2set. rewrite !split_comma_join; [done|done|..]; [|done|]; intros x Hx; apply Hc, elem_of_app; auto.
Qed.
Lemma str2imp_total s : (∃ i, str2imp s = Ok i) ∨ str2imp s = Err ValueError.
Proof. unfold str2imp. destruct (py_split "=>" s) as [|? [|? [|? ?]]]; eauto. Qed.

(** ** Unit and negative implications, partial examples *)
Lemma partial_respected (i : fimp) (C P : gset name) : C ⊆ P →
  is_respected_partial i (C, P) = true ↔ ∃ X, C ⊆ X ∧ X ⊆ P ∧ respects X i.
Proof.
  intros HCP. unfold is_respected_partial. cbn [fst snd]. rewrite orb_true_iff, negb_true_iff, bool_decide_eq_true, bool_decide_eq_false.
  setoid_rewrite respects_conclusion. split.
  - intros [H|H]; [exists P; done|]. exists C. split; [done|]. split; [done|]. intros ?; done.
  - intros (X & H1 & H2 & H3). destruct (decide (i.1 ⊆ C)) as [Hp|Hp]; [|by right]. left.
    assert (i.1 ⊆ X) as HpX by (clear -Hp H1; set_solver). specialize (H3 HpX). clear -H2 H3. set_solver.
Qed.
Lemma neg_respected (i : fimp) X : neg_is_respected i X = true ↔ ¬ (i.1 ⊆ X ∧ ∃ x, x ∈ X ∧ x ∈ i.2 ∧ x ∉ i.1).
Proof.
  unfold neg_is_respected, conclusion. rewrite orb_true_iff, negb_true_iff, bool_decide_eq_true, bool_decide_eq_false. split.
  - intros [H|H] [Hp (x & ?)]; [done|]. clear -H H0. set_solver.
  - intros H. destruct (decide (i.1 ⊆ X)) as [Hp|Hp]; [|by left]. right. apply set_eq. intros x. split; [|by intros ?%elem_of_empty].
    intros [[H1 H2]%elem_of_difference H3]%elem_of_intersection. exfalso. apply H. split; [done|]. exists x. done.
Qed.
Lemma neg_partial_respected (i : fimp) C P : C ⊆ P →
  neg_is_respected_partial i (C, P) = true ↔
    ¬ i.1 ⊆ C ∨ ∀ X, C ⊆ X → X ⊆ P → neg_is_respected i X = true.
Proof.
  intros HCP. unfold neg_is_respected_partial, neg_is_respected. cbn [fst snd].
  setoid_rewrite orb_true_iff. setoid_rewrite negb_true_iff. rewrite !bool_decide_eq_false. setoid_rewrite bool_decide_eq_false. rewrite bool_decide_eq_true.
  setoid_rewrite bool_decide_eq_true. split.
  - intros [H|H]; [|by left]. right. intros X H1 H2. right. apply set_eq. clear -H H2. set_solver.
  - intros [H|H]; [by right|]. destruct (decide (i.1 ⊆ C)) as [Hp|Hp]; [|by right]. left.
    destruct (H P HCP) as [Hn|?]; [done| |done]. exfalso. apply Hn. clear -Hp HCP. set_solver.
Qed.
Lemma unit_spec p c : let i := unit_imp p c in
  unit_conclusion i = (if decide (c ∈ p) then Err AssertionError else Ok {[c]}) ∧
  ∀ X, unit_is_respected i X = (if decide (p ⊆ X) then if decide (c ∈ p) then Err AssertionError else Ok (bool_decide (c ∈ X)) else Ok true).
Proof.
  cbn zeta. assert (unit_conclusion (unit_imp p c) = (if decide (c ∈ p) then Err AssertionError else Ok {[c]})) as E.
  { unfold unit_conclusion, unit_imp, conclusion. cbn [fst snd]. destruct (decide (c ∈ p)) as [H|H].
    - assert ({[c]} ∖ p = (∅ : gset name)) as -> by (apply set_eq; clear -H; set_solver). by rewrite size_empty.
    - assert ({[c]} ∖ p = ({[c]} : gset name)) as -> by (apply set_eq; clear -H; set_solver). by rewrite size_singleton. }
  split; [done|]. intros X. unfold unit_is_respected. rewrite E. cbn [unit_imp fst]. rewrite <-decide_bool_decide.
  destruct (decide (p ⊆ X)); [|done]. destruct (decide (c ∈ p)); [done|]. cbn [mbind res_bind]. f_equal.
  apply bool_decide_ext. clear. set_solver.
Qed.
