(** * Facts on the messages of contexts *)
From Coq Require Import Ascii.
From Verif Require Import Py Spec ContextModel ContextSpec ContextOps PyFacts SpecFacts ContextFacts ContextInit ContextMisc
  ContextReduce ContextEq FileModel FileFacts MsgSpec MsgModel.


Lemma gen_name_ne a i : gen_name a i ≠ a.
Proof.
  unfold gen_name. destruct a as [s|z]; [|done]. intros [= H]. apply (f_equal String.length) in H.
  cbn [pystr] in H. assert (∀ x y : string, String.length (x ++ y) = String.length x + String.length y) as Hl.
  { clear. intros x y. induction x as [|ch x IH]; [done|]. change (S (String.length (x ++ y)) = S (String.length x) + String.length y). rewrite IH. done. }
  rewrite !Hl in H. simpl in H. lia.
Qed.

Lemma positions_lookup a l i : i ∈ positions a l ↔ l !! i = Some a.
Proof.
  unfold positions. rewrite elem_of_list_fmap. split.
  - intros ([j x] & -> & H). apply elem_of_list_In, filter_In in H as [H E]. apply bool_decide_eq_true in E. cbn in E; subst x.
    apply elem_of_list_In, elem_of_lookup_imap in H as (j' & x & [= <- <-] & H). done.
  - intros H. exists (i, a). split; [done|]. apply elem_of_list_In, filter_In. split; [|by apply bool_decide_eq_true].
    apply elem_of_list_In, elem_of_lookup_imap. eauto.
Qed.
Lemma positions_gen (a : name) (l : list name) k : StronglySorted lt (map fst (List.filter (fun p => bool_decide (p.2 = a)) (imap (fun i x => (k + i, x)) l))) ∧
  ∀ i, i ∈ map fst (List.filter (fun p => bool_decide (p.2 = a)) (imap (fun i x => (k + i, x)) l)) → k ≤ i.
Proof.
  revert k. induction l as [|x l IH]; intros k; [split; [constructor|by intros i ?%elem_of_nil]|].
  cbn [imap]. assert (imap ((fun i x => (k + i, x)) ∘ S) l = imap (fun i x => (S k + i, x)) l) as ->.
  { apply imap_ext. intros i y _. simpl. f_equal. lia. }
  destruct (IH (S k)) as [H1 H2]. cbn [List.filter]. destruct (bool_decide _); cbn [map fst].
  - split.
    + constructor; [done|]. apply Forall_forall. intros i Hi. apply H2 in Hi. lia.
    + intros i [->|Hi]%elem_of_cons; [lia|]. apply H2 in Hi. lia.
  - split; [done|]. intros i Hi. apply H2 in Hi. lia.
Qed.
Lemma positions_spec a l : is_positions l a (positions a l).
Proof. split; [apply (positions_gen a l 0)|apply positions_lookup]. Qed.
Lemma is_positions_unique l a ps ps' : is_positions l a ps → is_positions l a ps' → ps = ps'.
Proof.
  intros [S1 E1] [S2 E2]. revert ps' S2 E2. assert (∀ i, i ∈ ps → l !! i = Some a) as _ by (intros; by apply E1).
  assert (∀ ps', StronglySorted lt ps' → (∀ i, i ∈ ps ↔ i ∈ ps') → ps = ps') as H.
  { clear E1. induction S1 as [|x ps H IH HF]; intros ps' S2 E.
    - destruct ps' as [|y ps']; [done|]. exfalso. apply (not_elem_of_nil y), E. left.
    - destruct S2 as [|y ps' H2 HF2]; [exfalso; apply (not_elem_of_nil x), E; left|].
      rewrite Forall_forall in HF, HF2. assert (x = y) as <-.
      { destruct (decide (x = y)) as [|Hn]; [done|]. exfalso.
        assert (x ∈ ps') as Hx. { assert (x ∈ y :: ps') as [?|?]%elem_of_cons by (apply E; left); congruence. }
        assert (y ∈ ps) as Hy. { assert (y ∈ x :: ps) as [?|?]%elem_of_cons by (apply E; left); congruence. }
        apply HF2 in Hx. apply HF in Hy. lia. }
      f_equal. apply IH; [done|]. intros i. split; intros Hi.
      + assert (i ∈ x :: ps') as [->|?]%elem_of_cons by (apply E; by right); [|done]. apply HF in Hi. lia.
      + assert (i ∈ x :: ps) as [->|?]%elem_of_cons by (apply E; by right); [|done]. apply HF2 in Hi. lia. }
  intros ps' S2 E2. apply H; [done|]. intros i. by rewrite E1, E2.
Qed.

Lemma rename_log_list l log ks : (foldl rename_log_at (l, log) ks).1 = foldl rename_dups_at l ks.
Proof.
  revert l log. induction ks as [|k ks IH]; intros l log; [done|]. cbn [foldl].
  assert (∃ log', rename_log_at (l, log) k = (rename_dups_at l k, log')) as [log' ->]; [|apply IH].
  unfold rename_log_at, rename_dups_at. destruct (l !! k); [|by eexists]. destruct (1 <? _)%nat; by eexists.
Qed.
Lemma uniquify_log_list l : (uniquify_log l).1 = uniquify l.
Proof. unfold uniquify_log, uniquify. destruct (_ <? _)%nat; [apply rename_log_list|done]. Qed.

Lemma repeated_count l x : repeated l x ↔ 1 < py_count x l.
Proof. symmetry. apply count_gt1. Qed.

(** The names reported before the k-th iteration. *)
Definition log_upto (l : list name) (k : nat) : list (name * list nat) :=
  omap (λ i, x ← l !! i; if bool_decide (1 < py_count x l) && negb (bool_decide (x ∈ take i l)) then Some (x, positions x l) else None) (seq 0 k).

Lemma rename_log_loop l k : no_clash l → k ≤ length l →
  foldl rename_log_at (l, []) (seq 0 k) = (foldl rename_dups_at l (seq 0 k), log_upto l k).
Proof.
  intros Hc. induction k as [|k IH]; intros Hk; [done|].
  rewrite seq_S, !foldl_app, IH by lia. cbn [foldl]. rewrite Nat.add_0_l.
  assert (log_upto l (S k) = log_upto l k ++ omap (λ i, x ← l !! i; if bool_decide (1 < py_count x l) && negb (bool_decide (x ∈ take i l)) then Some (x, positions x l) else None) [k]) as ->.
  { unfold log_upto. rewrite seq_S. apply omap_app. }
  pose proof (rename_loop l Hc k ltac:(lia)) as Lk. pose proof (rename_loop l Hc (S k) Hk) as LS.
  rewrite seq_S, foldl_app in LS. cbn [foldl] in LS. rewrite Nat.add_0_l in LS.
  set (L := foldl rename_dups_at l (seq 0 k)) in *.
  destruct (lookup_lt_is_Some_2 l k) as [x Hx]; [lia|].
  assert (L !! k = Some (if (1 <? py_count x l)%nat && bool_decide (x ∈ take k l) then gen_name x k else x)) as HLk.
  { rewrite Lk, list_lookup_imap, Hx. done. }
  assert (rename_dups_at L k !! k = Some (if (1 <? py_count x l)%nat then gen_name x k else x)) as HSk.
  { rewrite LS, list_lookup_imap, Hx. simpl. rewrite (take_S_r _ _ x) by done.
    rewrite (bool_decide_eq_true_2 (x ∈ take k l ++ [x])) by (apply elem_of_app; right; by left). by rewrite andb_true_r. }
  unfold rename_log_at. rewrite HLk. cbn [omap list_omap]. rewrite Hx. cbn [mbind option_bind].
  destruct (decide (1 < py_count x l)) as [Hr|Hr].
  2:{ assert (1 <? py_count x l = false)%nat as E0 by (apply Nat.ltb_ge; lia). rewrite E0 in HLk, HSk |- *.
      rewrite (bool_decide_eq_false_2 (1 < _)) by done. cbn [andb] in *.
      assert (1 <? py_count x L = false)%nat as E.
      { destruct (1 <? py_count x L)%nat eqn:E; [|done]. exfalso. unfold rename_dups_at in HSk. rewrite HLk, E in HSk.
        rewrite list_lookup_imap, HLk in HSk. simpl in HSk. rewrite decide_True in HSk by done.
        injection HSk. by apply gen_name_ne. }
      rewrite E, app_nil_r. unfold rename_dups_at. by rewrite HLk, E. }
  rewrite (proj2 (Nat.ltb_lt _ _) Hr) in HLk, HSk |- *. rewrite (bool_decide_eq_true_2 (1 < _)) by done. cbn [andb] in *.
  destruct (decide (x ∈ take k l)) as [Hs|Hs].
  - rewrite (bool_decide_eq_true_2 (x ∈ take k l)) in HLk |- * by done. cbn [negb].
    assert (1 <? py_count (gen_name x k) L = false)%nat as E.
    { destruct (1 <? py_count (gen_name x k) L)%nat eqn:E; [|done]. exfalso. unfold rename_dups_at in HSk. rewrite HLk, E in HSk.
      rewrite list_lookup_imap, HLk in HSk. simpl in HSk. rewrite decide_True in HSk by done.
      apply (gen_name_ne (gen_name x k) k). congruence. }
    rewrite E, app_nil_r. unfold rename_dups_at. by rewrite HLk, E.
  - rewrite (bool_decide_eq_false_2 (x ∈ take k l)) in HLk |- * by done. cbn [negb].
    assert (1 <? py_count x L = true)%nat as E.
    { destruct (1 <? py_count x L)%nat eqn:E; [done|]. exfalso. unfold rename_dups_at in HSk. rewrite HLk, E, HLk in HSk.
      apply (gen_name_ne x k). congruence. }
    rewrite E. f_equal. f_equal. f_equal. f_equal.
    apply (is_positions_unique L x); [apply positions_spec|]. destruct (positions_spec x l) as [P1 P2]. split; [done|].
    intros i. rewrite P2, Lk, list_lookup_imap. destruct (l !! i) as [y|] eqn:Hy; [|done]. simpl. split.
    + intros [= ->]. rewrite (bool_decide_eq_false_2 (x ∈ take k l)) by done. by rewrite andb_false_r.
    + destruct ((1 <? py_count y l)%nat && bool_decide (y ∈ take k l)) eqn:Ey; [|done].
      intros [= Hg]. exfalso. apply andb_true_iff in Ey as [Ey _]. apply Nat.ltb_lt in Ey.
      apply (Hc y i Ey); [by eapply lookup_lt_Some|]. rewrite Hg. by eapply elem_of_list_lookup_2.
Qed.

Lemma StronglySorted_join {A} (R : A → A → Prop) l k :
  (∀ x y, x ∈ l → y ∈ k → R x y) → StronglySorted R l → StronglySorted R k → StronglySorted R (l ++ k).
Proof.
  intros H Hl Hk. induction Hl as [|x l Hl IH HF]; [done|]. cbn. constructor.
  - apply IH. intros y z Hy Hz. apply H; [by right|done].
  - apply Forall_app. split; [done|]. apply Forall_forall. intros z Hz. apply H; [by left|done].
Qed.
Lemma log_upto_reports l : reports l (log_upto l (length l)).
Proof.
  assert (∀ k x ps, k ≤ length l → (x, ps) ∈ log_upto l k ↔ 1 < py_count x l ∧ ps = positions x l ∧ x ∈ take k l) as HE.
  { intros k x ps Hk. unfold log_upto. rewrite elem_of_list_omap. split.
    - intros (i & Hi & E). apply elem_of_seq in Hi. destruct (l !! i) as [y|] eqn:Hy; [|done]. cbn in E.
      case_bool_decide as Hr; [|done]. destruct (bool_decide (y ∈ take i l)); [done|]. cbn in E. injection E as <- <-.
      split; [done|]. split; [done|]. apply elem_of_list_lookup. exists i. rewrite lookup_take by lia. done.
    - intros (Hr & -> & Hx). apply elem_of_list_lookup in Hx as [j Hj].
      assert (j < k). { apply lookup_lt_Some in Hj. rewrite take_length in Hj. lia. }
      rewrite lookup_take in Hj by lia.
      assert (∃ i, i ≤ j ∧ l !! i = Some x ∧ x ∉ take i l) as (i & Hi & Hxi & Hn).
      { clear -Hj. induction j as [j IH] using lt_wf_ind. destruct (decide (x ∈ take j l)) as [Hin|]; [|by exists j].
        apply elem_of_list_lookup in Hin as [i Hi]. assert (i < j).
        { apply lookup_lt_Some in Hi. rewrite take_length in Hi. lia. }
        rewrite lookup_take in Hi by lia. destruct (IH i) as (i' & ? & ?); [done|done|]. exists i'. split; [lia|done]. }
      exists i. split; [apply elem_of_seq; lia|]. rewrite Hxi. cbn.
      rewrite bool_decide_eq_true_2 by done. by rewrite bool_decide_eq_false_2. }
  split.
  - intros x ps. rewrite HE by lia. rewrite repeated_count, take_ge by lia. split.
    + intros (? & -> & _). split; [done|apply positions_spec].
    + intros [Hr Hp]. split; [done|]. split; [by eapply is_positions_unique, positions_spec|].
      apply py_count_elem. lia.
  - assert (∀ k, k ≤ length l → StronglySorted (λ e e' : name * list nat, occurs_before l e.1 e'.1) (log_upto l k)) as H; [|by apply H].
    intros k. induction k as [|k IH]; intros Hk; [constructor|].
    unfold log_upto. rewrite seq_S, omap_app. fold (log_upto l k). apply StronglySorted_join; [|by apply IH; lia|].
    + intros [x ps] [y qs] Hx Hy. apply HE in Hx as (_ & _ & Hx); [|lia].
      apply elem_of_list_omap in Hy as (i & Hi & E). apply elem_of_list_singleton in Hi as ->. rewrite Nat.add_0_l in E.
      destruct (l !! k) as [y'|] eqn:Hk'; [|done]. cbn in E. destruct (bool_decide (1 < _)); [|done].
      case_bool_decide as Hn; [done|]. cbn in E. injection E as <- <-. cbn.
      apply elem_of_list_lookup in Hx as [i Hi]. assert (i < k).
      { apply lookup_lt_Some in Hi. rewrite take_length in Hi. lia. }
      rewrite lookup_take in Hi by lia. exists i. split; [done|]. intros j Hj.
      destruct (decide (i < j)); [done|]. exfalso. apply Hn. apply elem_of_list_lookup. exists j. rewrite lookup_take by lia. done.
    + cbn. destruct (l !! k) as [y|]; cbn; [|constructor]. destruct (_ && _); repeat constructor.
Qed.
Lemma NoDup_log l : uniquify_log l = (l, []) ∧ NoDup l ∨ ¬ NoDup l ∧ (uniquify_log l).2 ≠ [].
Proof.
  unfold uniquify_log. destruct (_ <? _)%nat eqn:E; [|left; split; [done|by apply size_lt_NoDup]].
  assert (¬ NoDup l) as Hn. { intros H%size_lt_NoDup. congruence. }
  right. split; [done|]. intros Hlog.
  assert (∀ ks log, (foldl rename_log_at (l, log) ks).2 = [] → log = [] ∧ ∀ k x, k ∈ ks → l !! k = Some x → py_count x l ≤ 1) as H.
  { clear. assert (∀ ks st, st.2 ≠ [] → (foldl rename_log_at st ks).2 ≠ []) as Hne.
    { induction ks as [|k ks IH]; intros [L log] H; [done|]. cbn [foldl]. apply IH. unfold rename_log_at.
      destruct (L !! k); [|done]. destruct (1 <? _)%nat; [|done]. cbn. by destruct log. }
    induction ks as [|k ks IH]; intros log H; [split; [done|by intros ? ? ?%elem_of_nil]|]. cbn [foldl] in H.
    unfold rename_log_at at 2 in H. destruct (l !! k) as [y|] eqn:Hy; [destruct (1 <? py_count y l)%nat eqn:Ec|].
    - exfalso. revert H. apply Hne. cbn. by destruct log.
    - destruct (IH _ H) as [-> IH']. split; [done|]. intros j x [->|Hj]%elem_of_cons Hx; [|by eapply IH'].
      apply Nat.ltb_ge in Ec. congruence.
    - destruct (IH _ H) as [-> IH']. split; [done|]. intros j x [->|Hj]%elem_of_cons Hx; [congruence|by eapply IH']. }
  destruct (H _ _ Hlog) as [_ H']. apply Hn, NoDup_py_count. intros x.
  destruct (decide (x ∈ l)) as [[i Hi]%elem_of_list_lookup|Hx].
  - apply (H' i x); [|done]. apply elem_of_seq. apply lookup_lt_Some in Hi. lia.
  - destruct (decide (0 < py_count x l)) as [?%py_count_elem|]; [done|lia].
Qed.

Lemma sapp_assoc (a b c : string) : ((a ++ b) ++ c)%string = (a ++ (b ++ c))%string.
Proof. induction a as [|ch a IH]; [done|]. change (String ch ((a ++ b) ++ c) = String ch (a ++ (b ++ c)))%string. by rewrite IH. Qed.
Lemma sapp_nil (a : string) : (a ++ "")%string = a.
Proof. induction a as [|ch a IH]; [done|]. change (String ch (a ++ "") = String ch a)%string. by rewrite IH. Qed.
Lemma fmt_free s args : sfree "{" s → fmt s args = Ok s.
Proof.
  induction s as [|ch s IH]; intros H; [done|]. destruct H as [H1 H2].
  assert (fmt (String ch s) args = (r ← fmt s args; Ok (String ch r))) as ->; [|by rewrite IH].
  destruct ch as [[] [] [] [] [] [] [] []]; try reflexivity. by destruct H1.
Qed.
Lemma fmt_app s u args : sfree "{" s → fmt (s ++ u) args = (r ← fmt u args; Ok (s ++ r)%string).
Proof.
  induction s as [|ch s IH]; intros H; [change (fmt u args = (r ← fmt u args; Ok r)); by destruct (fmt u args)|]. destruct H as [H1 H2].
  change (String ch s ++ u)%string with (String ch (s ++ u)).
  assert (fmt (String ch (s ++ u)) args = (r ← fmt (s ++ u) args; Ok (String ch r))) as ->.
  { destruct ch as [[] [] [] [] [] [] [] []]; try reflexivity. by destruct H1. }
  rewrite IH by done. by destruct (fmt u args).
Qed.
Lemma fmt_hole u a args : fmt ("{}" ++ u)%string (a :: args) = (r ← fmt u args; Ok (a ++ r)%string).
Proof. reflexivity. Qed.
Lemma join_concat sep l : join sep l = String.concat sep l.
Proof. induction l as [|a [|b l] IH]; [done|done|]. cbn [join String.concat] in *. by rewrite IH. Qed.
Lemma log_message_spec kind e : sfree "{" kind → log_message kind e = Ok (rename_note kind e).
Proof.
  intros Hk. unfold log_message, rename_note. destruct e as [x ps]. cbn [fst snd].
  assert (fmt ("Not unique name of " ++ kind ++ " '{}', ") [pystr x] = Ok ("Not unique name of " ++ kind ++ " '" ++ pystr x ++ "', ")%string) as ->.
  { rewrite fmt_app by (cbn; repeat split; done). rewrite fmt_app by done.
    change " '{}', "%string with (" '" ++ ("{}" ++ "', "))%string. rewrite fmt_app by (cbn; repeat split; done).
    rewrite fmt_hole. reflexivity. }
  assert (fmt "renamed to '{}_n', n \in {}" [pystr x; str_nats ps] = Ok ("renamed to '" ++ pystr x ++ "_n', n \in " ++ str_nats ps)%string) as ->.
  { change "renamed to '{}_n', n \in {}"%string with ("renamed to '" ++ ("{}" ++ ("_n', n \in " ++ ("{}" ++ ""))))%string.
    rewrite fmt_app by (cbn; repeat split; done). rewrite fmt_hole, fmt_app by (cbn; repeat split; done). rewrite fmt_hole.
    cbn [fmt mbind res_bind]. by rewrite sapp_nil. }
  cbn [mbind res_bind]. f_equal. unfold str_nats. rewrite join_concat, !sapp_assoc. reflexivity.
Qed.
Lemma mapM_log kind l : sfree "{" kind → mapM (log_message kind) l = Ok (map (rename_note kind) l).
Proof.
  intros Hk. induction l as [|e l IH]; [done|]. cbn [mapM map]. rewrite log_message_spec by done. cbn [mbind res_bind]. by rewrite IH.
Qed.

Lemma init_message_spec t os ats :
  match init_message t os ats with
  | Some _ => length t ≠ length os ∨ ∃ r, head t = Some r ∧ length r ≠ length ats
  | None => length t = length os ∧ ∀ r, head t = Some r → length r = length ats
  end.
Proof.
  unfold init_message. destruct (Nat.eqb_spec (length t) (length os)) as [E|E]; cbn [negb]; [|by left].
  destruct t as [|r t]; [done|]. destruct (Nat.eqb_spec (length r) (length ats)) as [E'|E']; cbn [negb].
  - split; [done|]. by intros r' [= <-].
  - right. by exists r.
Qed.
Lemma mk_context_logged_spec t z os ats :
  mk_context_logged t z os ats =
  match init_message t os ats with
  | Some _ => ([], Err ValueError)
  | None => (map (rename_note "attribute") (uniquify_log ats).2 ++ map (rename_note "object") (uniquify_log os).2, mk_context t z os ats)
  end.
Proof.
  unfold mk_context_logged. pose proof (init_message_spec t os ats) as H. destruct (init_message t os ats) as [s|]; [done|].
  pose proof (uniquify_log_list ats) as Ea. pose proof (uniquify_log_list os) as Eo.
  destruct (uniquify_log ats) as [ats' la]. destruct (uniquify_log os) as [os' lo]. cbn [fst snd] in *. subst ats' os'.
  rewrite !mapM_log by (cbn; repeat split; done). cbn [mbind res_bind]. f_equal.
  unfold mk_context. destruct H as [-> H]. rewrite Nat.eqb_refl. cbn [negb]. destruct t as [|r t].
  - done.
  - rewrite (H r) by done. rewrite Nat.eqb_refl. done.
Qed.
Lemma mk_context_logged_result t z os ats : (mk_context_logged t z os ats).2 = mk_context t z os ats.
Proof.
  rewrite mk_context_logged_spec. pose proof (init_message_spec t os ats) as H. destruct (init_message t os ats) as [s|]; [|done].
  cbn [snd]. unfold mk_context. destruct (Nat.eqb_spec (length t) (length os)) as [E|E]; [|done]. cbn [negb].
  destruct H as [H|(r & Hr & H)]; [done|]. destruct t as [|r' t]; [done|]. injection Hr as ->.
  destruct (Nat.eqb_spec (length r) (length ats)); done.
Qed.
Lemma uniquify_log_reports l : no_clash l → reports l (uniquify_log l).2.
Proof.
  intros Hc. unfold uniquify_log. destruct (_ <? _)%nat eqn:E.
  - rewrite rename_log_loop by (done || lia). apply log_upto_reports.
  - apply size_lt_NoDup in E. split; [|constructor]. cbn [snd]. intros x ps. split; [by intros ?%elem_of_nil|].
    intros [(i & j & Hij & Hi & Hj) _]. exfalso. apply Hij. by eapply NoDup_lookup.
Qed.

Lemma pretty_sfree (n : nat) ch : digit_val ch = None → sfree ch (pretty n).
Proof.
  intros H. rewrite pretty_nat_N. pose proof (pretty_N_all (N.of_nat n)) as E. revert E.
  generalize (pretty (N.of_nat n)). intros s. induction s as [|x s IH]; intros E; [done|].
  cbn in E. split; [|apply IH]; destruct (digit_val x) eqn:Ex; try done; congruence.
Qed.
Lemma two_numbers pre mid post a b a' b' :
  (pre ++ pretty (a : nat) ++ String ")" (mid ++ pretty (b : nat) ++ String ")" post))%string =
  (pre ++ pretty (a' : nat) ++ String ")" (mid ++ pretty (b' : nat) ++ String ")" post))%string → a = a' ∧ b = b'.
Proof.
  intros H. apply (inj (append pre)) in H. apply split_first in H as [H1 H2]; [|by apply pretty_sfree..].
  apply (inj (append mid)) in H2. apply split_first in H2 as [H2 _]; [|by apply pretty_sfree..].
  split; by apply (inj pretty).
Qed.
Lemma init_message_inj t os ats t' os' ats' s : init_message t os ats = Some s → init_message t' os' ats' = Some s →
  (length t ≠ length os ∧ length t = length t' ∧ length os = length os') ∨
  (length t = length os ∧ length t' = length os' ∧ length ats = length ats' ∧
   ∃ r r', head t = Some r ∧ head t' = Some r' ∧ length r = length r' ∧ length r ≠ length ats).
Proof.
  unfold init_message. destruct (Nat.eqb_spec (length t) (length os)) as [E|E]; cbn [negb];
    destruct (Nat.eqb_spec (length t') (length os')) as [E'|E']; cbn [negb].
  - destruct t as [|r t]; [done|]. destruct (Nat.eqb_spec (length r) (length ats)) as [Er|Er]; [done|]. cbn [negb].
    destruct t' as [|r' t']; [done|]. destruct (Nat.eqb_spec (length r') (length ats')) as [Er'|Er']; [done|]. cbn [negb].
    intros <- H. apply (inj Some) in H. symmetry in H. apply two_numbers in H as [H1 H2].
    right. split; [done|]. split; [done|]. split; [done|]. by exists r, r'.
  - destruct t as [|r t]; [done|]. destruct (Nat.eqb_spec (length r) (length ats)) as [Er|Er]; [done|]. cbn [negb].
    intros <- H. apply (inj Some) in H. discriminate H.
  - destruct t' as [|r' t']; [done|]. destruct (Nat.eqb_spec (length r') (length ats')) as [Er'|Er']; [done|]. cbn [negb].
    intros <- H. apply (inj Some) in H. discriminate H.
  - intros <- H. apply (inj Some) in H. symmetry in H. apply two_numbers in H as [H1 H2]. by left.
Qed.

Lemma mul_message_const c d c' d' : is_ok (mul_message c d) = true ∧ mul_message c d = mul_message c' d'.
Proof. split; reflexivity. Qed.

Lemma foldl_lines l s0 : foldl (fun s a => s ++ (tab ++ pystr a ++ newline))%string s0 l =
  (s0 ++ foldr (fun a s => (tab ++ pystr a ++ newline) ++ s) "" l)%string.
Proof.
  revert s0. induction l as [|a l IH]; intros s0; cbn [foldl foldr]; [by rewrite sapp_nil|]. rewrite IH. by rewrite sapp_assoc.
Qed.
Lemma wrong_names_spec ord c ns : (∀ X, ord X ≡ₚ elements X) →
  match wrong_names_message ord c ns with
  | None => check_attribute_names c ns = Ok tt
  | Some s => check_attribute_names c ns = Err ValueError ∧
      ∀ a, a ∈ ns → a ∉ atts c → contains (tab ++ pystr a ++ newline) s
  end.
Proof.
  intros Ho. unfold wrong_names_message, check_attribute_names. destruct (bool_decide _); [done|]. split; [done|].
  intros a Ha Hn. rewrite foldl_lines.
  assert (a ∈ ord (list_to_set ns ∖ list_to_set (atts c))) as Hin.
  { rewrite Ho. apply elem_of_elements, elem_of_difference. rewrite !elem_of_list_to_set. done. }
  apply elem_of_list_split in Hin as (l1 & l2 & ->). rewrite foldr_app. cbn [foldr].
  eexists ("Wrong attribute names:" ++ newline ++ foldr (fun a s => (tab ++ pystr a ++ newline) ++ s) "" l1)%string, _.
  assert (∀ l s, foldr (fun a s => (tab ++ pystr a ++ newline) ++ s)%string s l = (foldr (fun a s => (tab ++ pystr a ++ newline) ++ s) "" l ++ s)%string) as HF.
  { clear. induction l as [|a l IH]; intros s; cbn [foldr]; [done|]. rewrite IH, !sapp_assoc. done. }
  rewrite HF. rewrite !sapp_assoc. reflexivity.
Qed.
