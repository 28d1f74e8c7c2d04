(** * Suspended generators: the Duquenne-Guigues basis *)
From Verif Require Import Py Spec PyFacts SpecFacts DgSpec ContextModel ContextSpec ContextOps ContextFacts ContextReduce
  ClosureModel ClosureFacts DgModel DgFacts DgMain DgCons DgCxt DgFinal GenModel GenSpec.

Lemma calls_cons {W S A} (next : W → S → event A * S) w ws s :
  (calls next (w :: ws) s).1 = (next w s).1 :: (calls next ws (next w s).2).1.
Proof. cbn [calls]. destruct (next w s) as [e s1]. cbn. by destruct (calls next ws s1). Qed.
Lemma calls_snoc {W S A} (next : W → S → event A * S) ws w s :
  (calls next (ws ++ [w]) s).1 = (calls next ws s).1 ++ [(next w (calls next ws s).2).1].
Proof.
  revert s. induction ws as [|w' ws IH]; intros s; cbn [app calls].
  - cbn [fst snd app]. by destruct (next w s).
  - destruct (next w' s) as [e s1]. specialize (IH s1). destruct (calls next (ws ++ [w]) s1), (calls next ws s1). cbn in *. by rewrite IH.
Qed.
Lemma calls_length {W S A} (next : W → S → event A * S) ws s : length (calls next ws s).1 = length ws.
Proof.
  revert s. induction ws as [|w ws IH]; intros s; [done|]. rewrite calls_cons. cbn [length]. by rewrite IH.
Qed.

Lemma map_lookup_Some {A B} (f : A → B) l k y : map f l !! k = Some y ↔ ∃ x, l !! k = Some x ∧ y = f x.
Proof. change (map f l) with (f <$> l). rewrite list_lookup_fmap_Some. naive_solver. Qed.

Section dg.
  Context (ms : list name) (Hms : NoDup ms).
  Local Notation M := (list_to_set ms : gset name).
  Local Notation n := (length ms).
  Context (close : closer) (cond : gset name → bool).
  Definition overM (R : list fimp) : Prop := ∀ i, i ∈ R → i.1 ⊆ M ∧ i.2 ⊆ M.
  (** What holds whenever the while loop is entered. *)
  Record linv (L0 : list fimp) (R : list fimp) (a : gset name) (i : nat) : Prop := {
    l_over : overM R;
    l_a : a ⊆ M;
    l_i : i ≤ n;
    l_model : model_of (R ++ L0) a;
    l_lt : ∀ P, P ∈ map fst R → lectic ms P a }.
  (** States between calls. *)
  Definition sinv (Y : list fimp) (s : dgen) : Prop :=
    match s with
    | DgNew => Y = []
    | DgAt R a ac i => Y = R ++ [(a, ac)] ∧ linv [] R a i ∧ a ⊆ ac ∧ ac ⊆ M
    | DgEnd => True
    end.
  Lemma linv_nil L0 R a i : linv L0 R a i → linv [] R a i.
  Proof. intros [H1 H2 H3 H4 H5]. constructor; [done..| |done]. rewrite app_nil_r. intros j Hj. apply H4, elem_of_app. by left. Qed.
  (** The closure of the world in which a call is made. *)
  Definition reads (aclose : gset name → res (gset name)) (cl : gset name → gset name) : Prop :=
    growing_op M cl ∧ ∀ X, X ⊆ M → aclose X = Ok (cl X).
  Definition good_yield (L0 : list fimp) (cl : gset name → gset name) (Y : list fimp) (i : fimp) : Prop :=
    i.1 ⊆ M ∧ i.2 = cl i.1 ∧ i.1 ≠ i.2 ∧ cond i.1 = true ∧ model_of (Y ++ L0) i.1 ∧ ∀ P, P ∈ map fst Y → lectic ms P i.1.

  Section step.
  Context (L0 : list fimp) (HL0 : overM L0).
  Context (Hclose : ∀ R X, overM R → X ⊆ M → ∃ C, close X (Some (R ++ L0)) = Ok C ∧ is_closure (R ++ L0) X C).

  Lemma over_close R : overM R → close_ok ms close L0 R.
  Proof.
    intros HR X HX. destruct (Hclose R X HR HX) as (C & HC & C1 & C2 & C3). exists C. split; [done|]. split; [done|].
    apply C3; [done|]. intros i [Hi|Hi]%elem_of_app _; [by apply HR|by apply HL0].
  Qed.

  (** A step of the while loop, from the closure [ac] of [a] on. *)
  Definition next_ok (R : list fimp) (a b : gset name) (j : nat) : Prop :=
    b ⊆ M ∧ j ≤ n ∧ lectic ms a b ∧ model_of (R ++ L0) b.
  Lemma rest_cases R a ac i : overM R → a ⊆ M → a ⊆ ac → ac ⊆ M → i ≤ n →
    ((ac ∖ a) ∩ pre ms i ≠ ∅ ∧ ∃ b j, dg_inner ms close (Some L0) R (a ∖ suf ms i) i = Ok (b, Some j) ∧ next_ok R a b j) ∨
    ((ac ∖ a) ∩ pre ms i = ∅ ∧ size ac = n) ∨
    ((ac ∖ a) ∩ pre ms i = ∅ ∧ size ac ≠ n ∧ ∃ b j, dg_inner ms close (Some L0) R ac n = Ok (b, Some j) ∧ next_ok R a b j).
  Proof.
    intros HR Ha Hac HacM Hi. pose proof (over_close R HR) as HRc.
    assert (∀ a1 i1 b j, a1 ⊆ M → i1 ≤ n → inner_res ms close L0 R a1 i1 b j → model_of (R ++ L0) b) as Hmod.
    { intros a1 i1 b j Ha1 Hi1 (m & Hji & Hm & _ & Hc & _).
      assert (m ∈ M) by (apply elem_of_list_to_set; by eapply elem_of_list_lookup_2).
      destruct (Hclose R (a1 ∩ pre ms j ∪ {[m]})) as (C & HC & HC'); [done|clear -Ha1 H; set_solver|].
      rewrite Hc in HC. injection HC as <-. apply HC'. }
    destruct (decide ((ac ∖ a) ∩ pre ms i = ∅)) as [He|Hb].
    - right. destruct (decide (size ac = n)) as [Hn|Hn]; [by left|]. right. split; [done|]. split; [done|].
      assert (ac ≠ M) as Hne. { intros E. apply Hn. rewrite E. by apply size_M. }
      destruct (dg_inner_spec ms Hms close L0 R ac ac n HRc (le_n _) HacM) as (b & j & E & Hin).
      { rewrite pre_all. clear -HacM. set_solver. }
      { destruct (decide (Exists (λ x, x ∉ ac) ms)) as [(x & Hx & Hx')%Exists_exists|Hno].
        - apply elem_of_list_lookup in Hx as [k Hk]. exists k, x. split; [by eapply lookup_lt_Some|done].
        - exfalso. apply Hne, set_eq. intros x. split; [apply HacM|]. intros Hx%elem_of_list_to_set.
          destruct (decide (x ∈ ac)); [done|]. destruct Hno. apply Exists_exists. eauto. }
      exists b, j. split; [done|].
      destruct (inner_progress ms close L0 _ _ _ _ _ HRc (le_n _) HacM Hin) as (Hj & Hbm & Hag & m & Hm & Hmb & Hma).
      split; [done|]. split; [lia|]. split; [|exact (Hmod ac n b j HacM (le_n _) Hin)].
      assert (lectic ms ac b) as Hlt by (by exists j, m).
      destruct (lectic_total ms a ac) as [->|[H|H]]; [done|done|done| |].
      + by eapply lectic_trans.
      + exfalso. by eapply lectic_sub; [|exact H].
    - left. split; [done|].
      assert (a ∩ pre ms i ⊆ M) as Hai by (clear -Ha; set_solver).
      destruct (dg_inner_spec ms Hms close L0 R (a ∩ pre ms i) (a ∖ suf ms i) i HRc Hi Hai) as (b & j & E & Hin).
      { rewrite (suf_pre ms Hms (λ _, true) a i Ha). clear. set_solver. }
      { apply set_choose_L in Hb as [y Hy]. apply elem_of_intersection in Hy as [Hy1 Hy2].
        apply elem_of_pre in Hy2 as (k & Hk & Hx). exists k, y. split; [done|]. split; [done|].
        clear -Hy1. set_solver. }
      exists b, j. split; [done|].
      destruct (inner_progress ms close L0 _ _ _ _ _ HRc Hi Hai Hin) as (Hj & Hbm & Hag & m & Hm & Hmb & Hma).
      split; [done|]. split; [lia|]. split; [|exact (Hmod _ i b j Hai Hi Hin)].
      assert (j < i) as Hji by (destruct Hin as (? & ? & _); done).
      exists j, m. split; [done|]. split; [done|]. split.
      * intros Hm'. apply Hma, elem_of_intersection. split; [done|]. by apply (pre_index ms Hms j m).
      * intros k x Hk Hx. rewrite <-(Hag k x Hk Hx), elem_of_intersection, (pre_index ms Hms k x i Hx).
        split; [intros; split; [done|lia]|tauto].
  Qed.
  Lemma rest_gen R a ac i loop : overM R → a ⊆ M → a ⊆ ac → ac ⊆ M → i ≤ n →
    dgen_rest ms close (Some L0) loop R a ac i = (Stopped, DgEnd) ∨
    ∃ b j, dgen_rest ms close (Some L0) loop R a ac i = loop R b j ∧ next_ok R a b j.
  Proof.
    intros HR Ha H1 H2 Hi. unfold dgen_rest. destruct (rest_cases R a ac i HR Ha H1 H2 Hi) as [(H & b & j & E & Hn)|[(H & E)|(H & Hs & b & j & E & Hn)]].
    - right. exists b, j. rewrite bool_decide_true by done. by rewrite E.
    - left. rewrite bool_decide_false by (intros ?; done). by rewrite E, Nat.eqb_refl.
    - right. exists b, j. rewrite bool_decide_false by (intros ?; done). rewrite (proj2 (Nat.eqb_neq _ _)) by done. by rewrite E.
  Qed.

  Lemma linv_next R a i b j : linv L0 R a i → next_ok R a b j → linv L0 R b j.
  Proof.
    intros [H1 H2 H3 H4 H5] (N1 & N2 & N3 & N4). constructor; [done..|]. intros P HP. eapply lectic_trans; [by apply H5|done].
  Qed.
  Lemma over_snoc R a ac : overM R → a ⊆ M → ac ⊆ M → overM (R ++ [(a, ac)]).
  Proof. intros HR Ha Hac i [Hi| ->%elem_of_list_singleton]%elem_of_app; [by apply HR|done]. Qed.
  Lemma linv_resume R a ac i b j : linv [] R a i → ac ⊆ M → next_ok (R ++ [(a, ac)]) a b j → linv L0 (R ++ [(a, ac)]) b j.
  Proof.
    intros [H1 H2 H3 H4 H5] Hac (N1 & N2 & N3 & N4). constructor; [by apply over_snoc|done..|].
    intros P. rewrite map_app, elem_of_app. intros [HP|HP].
    - eapply lectic_trans; [by apply H5|done].
    - apply elem_of_list_singleton in HP as ->. done.
  Qed.

  Definition yields (cl : gset name → gset name) (R : list fimp) (a : gset name) (r : event fimp * dgen) : Prop :=
    r = (Stopped, DgEnd) ∨
    ∃ b j, r = (Yielded (b, cl b), DgAt R b (cl b) j) ∧ linv L0 R b j ∧ b ≠ cl b ∧ cond b = true ∧ (b = a ∨ lectic ms a b).
  Lemma loop_yields aclose cl fuel R a i : reads aclose cl → linv L0 R a i → 2 ^ n ≤ fuel + rank ms a →
    yields cl R a (dgen_loop ms close (Some L0) cond aclose fuel R a i).
  Proof.
    intros [Hcl Hac]. revert a i. induction fuel as [|fuel IH]; intros a i HI Hf.
    { pose proof (rank_lt ms a). lia. }
    pose proof HI as [H1 H2 H3 H4 H5]. cbn [dgen_loop]. destruct (size a <? n)%nat; [|by left].
    rewrite Hac by done. destruct (bool_decide (a ≠ cl a) && cond a) eqn:E.
    - right. apply andb_true_iff in E as [E1%bool_decide_eq_true E2]. exists a, i. split; [done|]. split; [done|]. split; [done|]. split; [done|]. by left.
    - destruct (rest_gen R a (cl a) i (dgen_loop ms close (Some L0) cond aclose fuel)) as [->|(b & j & -> & Hn)];
        [done|done|by apply (gr_ext _ _ Hcl)|by apply (gr_sub _ _ Hcl)|done|by left|].
      pose proof Hn as (_ & _ & Hlt & _). pose proof (lectic_rank _ _ _ Hlt).
      destruct (IH b j) as [->|(b' & j' & E' & HI' & Hne & Hc & Hb')]; [by eapply linv_next|lia|by left|].
      right. exists b', j'. do 4 (split; [done|]). right. destruct Hb' as [->|Hb']; [done|]. by eapply lectic_trans.
  Qed.

  Lemma next_spec aclose cl Y s : reads aclose cl → sinv Y s →
    let r := dgen_next ms close (Some L0) cond aclose s in
    (r = (Stopped, DgEnd)) ∨ (∃ i, r.1 = Yielded i ∧ good_yield L0 cl Y i ∧ sinv (Y ++ [i]) r.2).
  Proof.
    intros Hr Hs. cbn zeta. pose proof Hr as [Hcl _].
    assert (∀ R a r, yields cl R a r → r = (Stopped, DgEnd) ∨ ∃ i, r.1 = Yielded i ∧ good_yield L0 cl R i ∧ sinv (R ++ [i]) r.2) as Hy.
    { intros R a r [->|(b & j & -> & HI & Hne & Hc & _)]; [by left|]. right. exists (b, cl b). split; [done|].
      pose proof HI as [H1 H2 H3 H4 H5]. split.
      - done.
      - cbn. split; [done|]. split; [by eapply linv_nil|]. split; [by apply (gr_ext _ _ Hcl)|by apply (gr_sub _ _ Hcl)]. }
    destruct s as [|R a ac i|]; cbn [dgen_next sinv] in *; [| |by left].
    - subst Y. destruct (Hclose [] ∅) as (C & HC & HC1 & HC2 & HC3); [by intros ? ?%elem_of_nil|done|].
      cbn [app] in *. rewrite HC. apply (Hy [] C). apply loop_yields; [done| |lia]. constructor.
      + by intros ? ?%elem_of_nil.
      + apply HC3; [done|]. intros i Hi _. by apply HL0.
      + done.
      + done.
      + by intros ? ?%elem_of_nil.
    - destruct Hs as (-> & HI & H1 & H2). pose proof HI as [I1 I2 I3 I4 I5].
      destruct (rest_gen (R ++ [(a, ac)]) a ac i (dgen_loop ms close (Some L0) cond aclose (2 ^ n))) as [->|(b & j & -> & Hn)];
        [by apply over_snoc|done..|by left|].
      apply (Hy _ b). apply loop_yields; [done| |lia]. by eapply linv_resume.
  Qed.

  End step.
  Definition closes (L0 : list fimp) : Prop := overM L0 ∧
    ∀ R X, overM R → X ⊆ M → ∃ C, close X (Some (R ++ L0)) = Ok C ∧ is_closure (R ++ L0) X C.

  (** A sequence of calls, whatever happens between them. *)
  Lemma values_app {A} (l k : list (event A)) : values (l ++ k) = values l ++ values k.
  Proof. apply omap_app. Qed.
  Section worlds.
  Context {W : Type} (bg : W → list fimp) (aclose : W → gset name → res (gset name)) (cl : W → gset name → gset name).
  Local Notation nxt := (λ w, dgen_next ms close (Some (bg w)) cond (aclose w)).
  Lemma calls_end ws : (calls nxt ws DgEnd).1 = replicate (length ws) Stopped.
  Proof. induction ws as [|w ws IH]; [done|]. rewrite calls_cons. cbn [length replicate dgen_next fst snd]. by rewrite IH. Qed.
  Lemma values_stopped {A} k : values (replicate k Stopped : list (event A)) = [].
  Proof. induction k as [|k IH]; [done|]. exact IH. Qed.
  Lemma calls_spec ws Y s : (∀ w, w ∈ ws → closes (bg w) ∧ reads (aclose w) (cl w)) → sinv Y s →
    let es := (calls nxt ws s).1 in
    (∃ k m, es = map Yielded (values es) ++ replicate m Stopped ∧ k = length (values es) ∧ k + m = length ws) ∧
    ∀ k w i, ws !! k = Some w → es !! k = Some (Yielded i) → good_yield (bg w) (cl w) (Y ++ take k (values es)) i.
  Proof.
    revert Y s. induction ws as [|w ws IH]; intros Y s Hr Hs; cbn zeta.
    { split; [by exists 0, 0|done]. }
    destruct (Hr w) as [[Hw1 Hw2] Hw3]; [left|].
    destruct (next_spec (bg w) Hw1 Hw2 (aclose w) (cl w) Y s) as [E|(i & E & Hg & Hs')]; [done|done| |].
    - rewrite calls_cons, E. cbn [fst snd]. rewrite calls_end. split.
      + exists 0, (S (length ws)). change (Stopped :: replicate (length ws) Stopped) with (replicate (S (length ws)) Stopped : list (event fimp)).
        rewrite values_stopped. done.
      + intros k w' i Hk He. exfalso. change (Stopped :: replicate (length ws) Stopped) with (replicate (S (length ws)) Stopped : list (event fimp)) in He.
        apply lookup_replicate in He as [He _]. done.
    - rewrite calls_cons, E. cbn [fst snd]. destruct (IH (Y ++ [i]) _ (λ w' H, Hr w' (elem_of_list_further _ _ _ H)) Hs') as [(k & m & E1 & E2 & E3) Hy].
      set (es := (calls nxt ws _).1) in *. change (values (Yielded i :: es)) with (i :: values es). split.
      + exists (S k), m. cbn [map app length]. split; [by rewrite <-E1|]. split; [by rewrite E2|lia].
      + intros [|k'] w' i' Hk He; cbn [lookup list_lookup take] in *.
        * injection Hk as <-. injection He as <-. by rewrite app_nil_r.
        * rewrite cons_middle, (assoc_L (++)). by apply Hy.
  Qed.
  (** The number of values is bounded. *)
  Lemma calls_count ws : (∀ w, w ∈ ws → closes (bg w) ∧ reads (aclose w) (cl w)) → length (values (calls nxt ws DgNew).1) ≤ 2 ^ n.
  Proof.
    intros Hr. destruct (calls_spec ws [] DgNew Hr eq_refl) as [(k & m & E & Ek & Em) Hy].
    set (es := (calls nxt ws DgNew).1) in *.
    assert (∀ j i, values es !! j = Some i → j ≤ rank ms i.1) as Hrank.
    { intros j. induction (lt_wf j) as [j _ IH]. intros i Hi. destruct j as [|j]; [lia|].
      assert (S j < length (values es)) as Hlt by (by eapply lookup_lt_Some).
      destruct (lookup_lt_is_Some_2 (values es) j) as [i0 Hi0]; [lia|].
      destruct (lookup_lt_is_Some_2 ws (S j)) as [w Hw]; [lia|].
      assert (es !! S j = Some (Yielded i)) as He.
      { rewrite E. apply lookup_app_l_Some. apply map_lookup_Some. by exists i. }
      destruct (Hy (S j) w i Hw He) as (_ & _ & _ & _ & _ & Hl).
      assert (lectic ms i0.1 i.1) as Hlec%lectic_rank.
      { apply Hl. cbn [app]. apply elem_of_list_fmap. exists i0. split; [done|].
        apply elem_of_list_lookup. exists j. rewrite lookup_take; [done|lia]. }
      specialize (IH j ltac:(lia) i0 Hi0). lia. }
    destruct (decide (length (values es) ≤ 2 ^ n)) as [|Hgt]; [done|]. exfalso.
    destruct (lookup_lt_is_Some_2 (values es) (2 ^ n)) as [i Hi]; [lia|].
    apply Hrank in Hi. pose proof (rank_lt ms i.1). lia.
  Qed.

  (** ** Backgrounds that come to the same *)
  Definition same_bg (R L L' : list fimp) : Prop := ∀ X, model_of (R ++ L) X ↔ model_of (R ++ L') X.
  Lemma close_ext R L L' X : closes L → closes L' → same_bg R L L' → overM R → X ⊆ M →
    close X (Some (R ++ L)) = close X (Some (R ++ L')).
  Proof.
    intros [_ H1] [_ H2] Hs HR HX. destruct (H1 R X HR HX) as (C & -> & C1 & C2 & C3). destruct (H2 R X HR HX) as (D & -> & D1 & D2 & D3).
    f_equal. apply (anti_symm (⊆)); [apply C3|apply D3]; [done|by apply Hs|done|by apply Hs].
  Qed.
  Section ext.
  Context (L L' : list fimp) (HL : closes L) (HL' : closes L').
  Lemma inner_ext R a i : same_bg R L L' → overM R → a ⊆ M → dg_inner ms close (Some L) R a i = dg_inner ms close (Some L') R a i.
  Proof.
    intros Hs HR. revert a. induction i as [|j IH]; intros a Ha; [done|]. cbn [dg_inner].
    destruct (ms !! j) as [m|] eqn:Hm; [|done]. cbn [mbind res_bind get_or]. case_bool_decide.
    { apply IH. clear -Ha. set_solver. }
    assert (a ∪ {[m]} ⊆ M) as Ham.
    { intros x. rewrite elem_of_union, elem_of_singleton. intros [?| ->]; [by apply Ha|]. apply elem_of_list_to_set. by eapply elem_of_list_lookup_2. }
    cbn [cat_basis mbind res_bind]. rewrite (close_ext R L L' _ HL HL' Hs HR Ham).
    destruct (close _ _) as [b|]; [|done]. cbn [mbind res_bind]. case_bool_decide; [done|]. by apply IH.
  Qed.
  Lemma rest_ext R a ac i loop loop' : same_bg R L L' → overM R → a ⊆ M → a ⊆ ac → ac ⊆ M → i ≤ n →
    (∀ b j, b ⊆ M → j ≤ n → loop R b j = loop' R b j) →
    dgen_rest ms close (Some L) loop R a ac i = dgen_rest ms close (Some L') loop' R a ac i.
  Proof.
    intros Hs HR Ha H1 H2 Hi Hl. unfold dgen_rest. rewrite !inner_ext by (try done; clear -Ha; set_solver).
    destruct HL' as [HL1 HL2]. destruct (rest_cases L' HL1 HL2 R a ac i HR Ha H1 H2 Hi) as [(H & b & j & E & Hn)|[(H & E)|(H & Hs' & b & j & E & Hn)]].
    - rewrite bool_decide_true by done. rewrite E. destruct Hn as (N1 & N2 & _). by apply Hl.
    - rewrite bool_decide_false by (intros ?; done). by rewrite E, Nat.eqb_refl.
    - rewrite bool_decide_false by (intros ?; done). rewrite (proj2 (Nat.eqb_neq _ _)) by done. rewrite E.
      destruct Hn as (N1 & N2 & _). by apply Hl.
  Qed.
  Lemma loop_ext aclose1 cl1 fuel R a i : reads aclose1 cl1 → same_bg R L L' → overM R → a ⊆ M → i ≤ n →
    dgen_loop ms close (Some L) cond aclose1 fuel R a i = dgen_loop ms close (Some L') cond aclose1 fuel R a i.
  Proof.
    intros [Hcl Hac] Hs HR. revert a i. induction fuel as [|fuel IH]; intros a i Ha Hi; [done|].
    cbn [dgen_loop]. destruct (_ <? _)%nat; [|done]. rewrite Hac by done. destruct (_ && _); [done|].
    apply rest_ext; [done|done|done|by apply (gr_ext _ _ Hcl)|by apply (gr_sub _ _ Hcl)|done|]. intros b j Hb Hj. by apply IH.
  Qed.
  Lemma next_ext aclose1 cl1 Y s : reads aclose1 cl1 → sinv Y s → same_bg Y L L' →
    dgen_next ms close (Some L) cond aclose1 s = dgen_next ms close (Some L') cond aclose1 s.
  Proof.
    intros Hr Hs Hb. destruct s as [|R a ac i|]; cbn [dgen_next sinv] in *; [| |done].
    - subst Y. change (Some L) with (Some ([] ++ L)) at 1. change (Some L') with (Some ([] ++ L')) at 1.
      assert (overM []) as Hn by by intros ? ?%elem_of_nil.
      rewrite (close_ext [] L L' ∅ HL HL' Hb Hn) by done.
      destruct HL' as [HL1 HL2]. destruct (HL2 [] ∅) as (C & -> & HC1 & HC2 & HC3); [done|done|].
      eapply loop_ext; [done|done|done| |done]. apply HC3; [done|]. intros i Hi _. by apply HL1.
    - destruct Hs as (-> & HI & H1 & H2). pose proof HI as [I1 I2 I3 I4 I5].
      pose proof (over_snoc R a ac I1 I2 H2) as HR'. apply rest_ext; [done..|].
      intros b j Hb' Hj. by eapply loop_ext.
  Qed.
  End ext.
  Lemma calls_bg bg' ws Y s : (∀ w, w ∈ ws → closes (bg w) ∧ closes (bg' w) ∧ reads (aclose w) (cl w)) → sinv Y s →
    let es := (calls nxt ws s).1 in
    (∀ k w, ws !! k = Some w → same_bg (Y ++ take k (values es)) (bg w) (bg' w)) →
    es = (calls (λ w, dgen_next ms close (Some (bg' w)) cond (aclose w)) ws s).1.
  Proof.
    revert Y s. induction ws as [|w ws IH]; intros Y s Hr Hs; cbn zeta; [done|].
    rewrite !calls_cons. intros Hb. destruct (Hr w) as ([Hw1 Hw2] & HL' & Hw3); [left|].
    assert (dgen_next ms close (Some (bg w)) cond (aclose w) s = dgen_next ms close (Some (bg' w)) cond (aclose w) s) as E1.
    { eapply (next_ext (bg w) (bg' w) (conj Hw1 Hw2) HL' (aclose w) (cl w) Y); [done|done|].
      specialize (Hb 0 w eq_refl). by rewrite take_0, app_nil_r in Hb. }
    rewrite <-E1. cbn [fst]. f_equal. destruct (next_spec (bg w) Hw1 Hw2 (aclose w) (cl w) Y s Hw3 Hs) as [E|(i & E & Hg & Hs')].
    { rewrite E. cbn [snd]. clear. induction ws as [|w' ws IH]; [done|]. rewrite !calls_cons. cbn [dgen_next fst snd]. by f_equal. }
    apply (IH (Y ++ [i])); [intros ? ?; apply Hr; by right|done|].
    intros k w' Hk. specialize (Hb (S k) w' Hk). rewrite E in Hb.
    change (values (Yielded i :: ?es)) with (i :: values es) in Hb. cbn [take] in Hb. by rewrite <-(assoc_L (++)).
  Qed.
  End worlds.

  (** ** Objects are only added, and the answers are right *)
  Context (L0 : list fimp) (HL0 : overM L0).
  Context (Hclose : ∀ R X, overM R → X ⊆ M → ∃ C, close X (Some (R ++ L0)) = Ok C ∧ is_closure (R ++ L0) X C).
  Context {W : Type} (aclose : W → gset name → res (gset name)) (cl : W → gset name → gset name).
  Local Notation nxt := (λ w, dgen_next ms close (Some L0) cond (aclose w)).
  Context (clf : gset name → gset name) (aclosef : gset name → res (gset name)) (Hf : reads aclosef clf).
  Lemma dg_loop_extends fuel R a i R' : dg_loop ms aclosef close (Some L0) cond fuel R a i = Ok R' → R `prefix_of` R'.
  Proof.
    revert R a i. induction fuel as [|fuel IH]; intros R a i; cbn [dg_loop].
    { destruct (_ <? _)%nat; [done|]. by intros [= <-]. }
    destruct (_ <? _)%nat; [|by intros [= <-]]. destruct (aclosef a) as [ac|]; [|done]. cbn [mbind res_bind].
    set (R1 := if bool_decide (a ≠ ac) && cond a then R ++ [(a, ac)] else R). assert (R `prefix_of` R1) as H1.
    { unfold R1. destruct (_ && _); [by eexists|done]. }
    destruct (bool_decide ((ac ∖ a) ∩ pre ms i ≠ ∅)).
    - destruct (dg_inner _ _ _ _ _ _) as [[b oj]|]; [|done]. cbn [mbind res_bind]. intros H%IH. by etrans.
    - destruct (_ =? _)%nat; [by intros [= <-]|].
      destruct (dg_inner _ _ _ _ _ _) as [[b oj]|]; [|done]. cbn [mbind res_bind]. intros H%IH. by etrans.
  Qed.
  Lemma rest_both R a ac i loop F : overM R → a ⊆ M → a ⊆ ac → ac ⊆ M → i ≤ n →
    (dgen_rest ms close (Some L0) loop R a ac i = (Stopped, DgEnd) ∧
     (if bool_decide ((ac ∖ a) ∩ pre ms i ≠ ∅) then
        '(a2, oj) ← dg_inner ms close (Some L0) R (a ∖ suf ms i) i;
        dg_loop ms aclosef close (Some L0) cond F R a2 (default i oj)
      else if (size ac =? n)%nat then Ok R
      else
        '(a2, oj) ← dg_inner ms close (Some L0) R ac n;
        dg_loop ms aclosef close (Some L0) cond F R a2 (default n oj)) = Ok R) ∨
    ∃ b j, dgen_rest ms close (Some L0) loop R a ac i = loop R b j ∧ next_ok L0 R a b j ∧
     (if bool_decide ((ac ∖ a) ∩ pre ms i ≠ ∅) then
        '(a2, oj) ← dg_inner ms close (Some L0) R (a ∖ suf ms i) i;
        dg_loop ms aclosef close (Some L0) cond F R a2 (default i oj)
      else if (size ac =? n)%nat then Ok R
      else
        '(a2, oj) ← dg_inner ms close (Some L0) R ac n;
        dg_loop ms aclosef close (Some L0) cond F R a2 (default n oj)) = dg_loop ms aclosef close (Some L0) cond F R b j.
  Proof.
    intros HR Ha H1 H2 Hi. unfold dgen_rest. destruct (rest_cases L0 HL0 Hclose R a ac i HR Ha H1 H2 Hi) as [(H & b & j & E & Hn)|[(H & E)|(H & Hs & b & j & E & Hn)]].
    - right. exists b, j. rewrite bool_decide_true by done. by rewrite E.
    - left. rewrite bool_decide_false by (intros ?; done). by rewrite E, Nat.eqb_refl.
    - right. exists b, j. rewrite bool_decide_false by (intros ?; done). rewrite (proj2 (Nat.eqb_neq _ _)) by done. by rewrite E.
  Qed.
  Context (Hcond : ∀ X, cond X = true).
  (** [w] is a stage on the way to the final world. *)
  Definition stage (w : W) : Prop := reads (aclose w) (cl w) ∧ ∀ X, X ⊆ M → clf X ⊆ cl w X.
  Lemma loop_sim F R a i Rf w ws fuel : linv L0 R a i → dg_loop ms aclosef close (Some L0) cond F R a i = Ok Rf →
    (∀ w', w' ∈ w :: ws → stage w') → 2 ^ n ≤ fuel + rank ms a →
    let r := dgen_loop ms close (Some L0) cond (aclose w) fuel R a i in
    let es := r.1 :: (calls nxt ws r.2).1 in
    (∀ j, j ∈ values es → j.2 ⊆ clf j.1) →
    R ++ values es `prefix_of` Rf ∧ (Stopped ∈ es → R ++ values es = Rf).
  Proof.
    revert R a i w ws fuel. induction F as [|F IH]; intros R a i w ws fuel HI HF Hw Hfuel r es Hv.
    { cbn [dg_loop] in HF. destruct fuel as [|fuel]; [pose proof (rank_lt ms a); lia|].
      subst es r. cbn [dgen_loop] in *. destruct (size a <? n)%nat; [done|]. injection HF as <-.
      cbn [fst snd]. rewrite (calls_end (λ _, L0) aclose).
      change (Stopped :: replicate (length ws) Stopped) with (replicate (S (length ws)) Stopped : list (event fimp)).
      by rewrite values_stopped, app_nil_r. }
    destruct fuel as [|fuel]; [pose proof (rank_lt ms a); lia|].
    pose proof HI as [I1 I2 I3 I4 I5]. destruct (Hw w) as ([Hcl Hac] & Hs1); [left|].
    subst es r. cbn [dg_loop dgen_loop] in *. destruct (size a <? n)%nat.
    2: { injection HF as <-. cbn [fst snd]. rewrite (calls_end (λ _, L0) aclose).
      change (Stopped :: replicate (length ws) Stopped) with (replicate (S (length ws)) Stopped : list (event fimp)).
      by rewrite values_stopped, app_nil_r. }
    destruct Hf as [Hclf Hacf]. rewrite Hac in * by done. rewrite Hacf in HF by done. cbn [mbind res_bind] in HF.
    rewrite Hcond in *. rewrite andb_true_r in *. destruct (decide (a = cl w a)) as [Ea|Ea].
    - assert (clf a = a) as Ef.
      { apply (anti_symm (⊆)); [|by apply (gr_ext _ _ Hclf)]. rewrite Ea at 2. by apply Hs1. }
      rewrite (bool_decide_eq_false_2 (a ≠ cl w a)) in * by (intros ?; done).
      rewrite Ef in HF. rewrite (bool_decide_eq_false_2 (a ≠ a)) in HF by (intros ?; done).
      rewrite <-Ea in *.
      destruct (rest_both R a a i (dgen_loop ms close (Some L0) cond (aclose w) fuel) F) as [[E1 E2]|(b & j & E1 & Hn & E2)];
        [done..| |].
      + rewrite E1 in *. rewrite E2 in HF. injection HF as <-. cbn [fst snd]. rewrite (calls_end (λ _, L0) aclose).
        change (Stopped :: replicate (length ws) Stopped) with (replicate (S (length ws)) Stopped : list (event fimp)).
        by rewrite values_stopped, app_nil_r.
      + rewrite E1 in *. rewrite E2 in HF. apply (IH R b j w ws fuel); [by eapply linv_next|done|done| |done].
        pose proof Hn as (_ & _ & Hlt & _). apply lectic_rank in Hlt. lia.
    - rewrite (bool_decide_eq_true_2 (a ≠ cl w a)) in * by done. cbn [fst snd] in *.
      change (values (Yielded (a, cl w a) :: ?es)) with ((a, cl w a) :: values es) in *.
      assert (clf a = cl w a) as Ef.
      { apply (anti_symm (⊆)); [by apply Hs1|]. apply (Hv (a, cl w a)). left. }
      rewrite Ef in HF. rewrite (bool_decide_eq_true_2 (a ≠ cl w a)) in HF by done.
      pose proof (gr_ext _ _ Hcl a I2) as G1. pose proof (gr_sub _ _ Hcl a I2) as G2.
      pose proof (over_snoc R a (cl w a) I1 I2 G2) as HR'.
      destruct ws as [|w' ws].
      { cbn. split; [|by intros [?|?%elem_of_nil]%elem_of_cons].
        destruct (rest_both (R ++ [(a, cl w a)]) a (cl w a) i (λ _ _ _, (Stopped, DgEnd)) F) as [[E1 E2]|(b & j & E1 & Hn & E2)];
          [done..| |]; rewrite E2 in HF.
        - by injection HF as <-.
        - by eapply dg_loop_extends. }
      rewrite calls_cons in *. cbn [dgen_next] in *.
      destruct (rest_both (R ++ [(a, cl w a)]) a (cl w a) i (dgen_loop ms close (Some L0) cond (aclose w') (2 ^ n)) F) as [[E1 E2]|(b & j & E1 & Hn & E2)];
        [done..| |]; rewrite E2 in HF; rewrite E1 in *.
      + injection HF as <-. cbn [fst snd]. rewrite (calls_end (λ _, L0) aclose).
        change (Stopped :: replicate (length ws) Stopped) with (replicate (S (length ws)) Stopped : list (event fimp)).
        by rewrite values_stopped.
      + rewrite cons_middle, (assoc_L (++)), elem_of_cons.
        destruct (IH (R ++ [(a, cl w a)]) b j w' ws (2 ^ n)) as [P1 P2];
          [eapply (linv_resume L0); [by eapply linv_nil|done|done]|done|intros ? ?; apply Hw; by right|lia|intros ? ?; apply Hv; by right|].
        split; [done|]. intros [?|?]; [done|]. by apply P2.
  Qed.
  Lemma calls_sim ws Rf : (∀ w, w ∈ ws → stage w) →
    generalized_compute_dg_basis ms aclosef close (Some L0) cond = Ok Rf →
    let es := (calls nxt ws DgNew).1 in
    (∀ j, j ∈ values es → j.2 ⊆ clf j.1) →
    values es `prefix_of` Rf ∧ (Stopped ∈ es → values es = Rf).
  Proof.
    intros Hw HF es Hv. subst es. destruct ws as [|w ws].
    { cbn. split; [apply prefix_nil|by intros ?%elem_of_nil]. }
    rewrite calls_cons in *. cbn [dgen_next] in *. unfold generalized_compute_dg_basis in HF.
    destruct (Hclose [] ∅) as (C & HC & HC1 & HC2 & HC3); [by intros ? ?%elem_of_nil|done|].
    cbn [app] in *. rewrite HC in *. cbn [mbind res_bind] in HF.
    eapply (loop_sim (2 ^ n) [] C n Rf w ws (2 ^ n)); [|done|done|lia|done].
    constructor.
    + by intros ? ?%elem_of_nil.
    + apply HC3; [done|]. intros i Hi _. by apply HL0.
    + done.
    + done.
    + by intros ? ?%elem_of_nil.
  Qed.
End dg.

(** ** Contexts *)
Lemma rows_acl K L X : rows_in K L → fM K = fM L → acl L X ⊆ acl K X.
Proof.
  intros Hr HM m. unfold acl, up. rewrite !elem_of_filter. intros [H Hm]. split; [|by rewrite HM].
  intros g Hg. unfold down in Hg. apply elem_of_filter in Hg as [Hg1 Hg2]. destruct (Hr g Hg2) as (h & Hh & E). apply E, H.
  unfold down. apply elem_of_filter. split; [|done]. intros m' Hm'. apply E. by apply Hg1.
Qed.

Lemma calls_map {V W S A} (f : V → W) (next : W → S → event A * S) vs s :
  (calls next (map f vs) s).1 = (calls (λ v, next (f v)) vs s).1.
Proof. revert s. induction vs as [|v vs IH]; intros s; [done|]. cbn [map]. rewrite !calls_cons. cbn [fst]. by rewrite IH. Qed.

Section contexts.
  Context (c0 : context) (Hg0 : good c0) (Hcmp : comparable (atts c0) = true).
  Local Notation M := (list_to_set (atts c0) : gset name).
  Lemma simple_Hclose L0 (HL0 : overM (atts c0) L0) R X : overM (atts c0) R → X ⊆ M →
    ∃ C, simple_close X (Some (R ++ L0)) = Ok C ∧ is_closure (R ++ L0) X C.
  Proof.
    intros HR HX. apply (simple_close_ok c0 Hcmp L0); [|exact HR]. intros i Hi. destruct (HL0 i Hi). by apply (hashable_sub c0 Hcmp).
  Qed.
  (** A state of the context. *)
  Definition state (c : context) : Prop := good c ∧ atts c = atts c0 ∧ objs c ≠ [].
  Lemma state_reads c : state c → reads (atts c0) (cxt_aclose c) (acl (abs c)).
  Proof.
    intros (Hg & E & Hne). split.
    - apply closure_growing. rewrite <-E. apply (acl_closure_op (abs c)).
    - intros X HX. apply cxt_aclose_spec; [done| |done|by rewrite E]. by rewrite E.
  Qed.
  Definition wstate (w : list fimp * context) : Prop := overM (atts c0) w.1 ∧ state w.2.
  Lemma wstate_ok (w : list fimp * context) : wstate w → closes (atts c0) simple_close w.1 ∧ reads (atts c0) (cxt_aclose w.2) (acl (abs w.2)).
  Proof. intros [H1 H2]. split; [|by apply state_reads]. split; [done|]. intros R X. by apply simple_Hclose. Qed.
  Lemma dg_calls_any cond ws : (∀ w, w ∈ ws → wstate w) →
    let es := dg_iter_calls (atts c0) cond ws in
    (∃ m, es = map Yielded (values es) ++ replicate m Stopped) ∧ length es = length ws ∧ length (values es) ≤ 2 ^ length (atts c0) ∧
    ∀ k L c P C, ws !! k = Some (L, c) → es !! k = Some (Yielded (P, C)) →
      P ⊆ fM (abs c0) ∧ C = acl (abs c) P ∧ P ≠ C ∧ cond P = true ∧ holds (abs c) (P, C) ∧
      model_of (take k (values es) ++ L) P ∧
      ∀ Q, Q ∈ map fst (take k (values es)) → lectic (atts c0) Q P.
  Proof.
    intros Hs es. pose proof (λ w Hw, wstate_ok w (Hs w Hw)) as Hr.
    assert (NoDup (atts c0)) as Hnd by apply Hg0.
    destruct (calls_spec (atts c0) Hnd simple_close cond fst (λ w, cxt_aclose w.2) (λ w, acl (abs w.2)) ws [] DgNew Hr eq_refl) as [(k & m & E & _) Hy].
    split; [by exists m|]. split; [apply calls_length|]. split; [apply (calls_count (atts c0) Hnd simple_close cond fst (λ w, cxt_aclose w.2) (λ w, acl (abs w.2)) ws Hr)|].
    intros j L c P C Hc He. destruct (Hy j (L, c) (P, C) Hc He) as (H1 & H2 & H3 & H4 & H5 & H6). cbn [fst snd] in *.
    split; [exact H1|]. split; [exact H2|]. split; [exact H3|]. split; [exact H4|]. split; [|split; [exact H5|exact H6]].
    destruct (Hs (L, c)) as (_ & Hg & Ea & _); [by eapply elem_of_list_lookup_2|]. cbn [snd] in *.
    assert (fM (abs c) = M) as EM by (change (fM (abs c)) with (list_to_set (atts c) : gset name); by rewrite Ea).
    apply acl_holds; cbn [fst snd]; [by rewrite EM| |by rewrite H2]. rewrite H2. apply acl_sub.
  Qed.
  Lemma dg_calls_bg cond L0 ws : overM (atts c0) L0 → (∀ w, w ∈ ws → wstate w) →
    let es := dg_iter_calls (atts c0) cond ws in
    (∀ k L c, ws !! k = Some (L, c) → same_bg (take k (values es)) L L0) →
    es = dg_iter_calls (atts c0) cond (map (λ w, (L0, w.2)) ws).
  Proof.
    intros H0 Hs es Hb. pose proof (λ w Hw, wstate_ok w (Hs w Hw)) as Hr. assert (NoDup (atts c0)) as Hnd by apply Hg0.
    unfold es, dg_iter_calls. rewrite calls_map. cbn [fst snd].
    apply (calls_bg (atts c0) Hnd simple_close cond fst (λ w, cxt_aclose w.2) (λ w, acl (abs w.2)) (λ _, L0) ws [] DgNew); [|done|].
    - intros w Hw. destruct (Hr w Hw) as [R1 R2]. split; [done|]. split; [|done]. split; [done|]. intros R X. by apply simple_Hclose.
    - intros k [L c] Hk. by apply (Hb k L c).
  Qed.
  Lemma dg_calls_bg2 cond L0 ws : overM (atts c0) L0 → (∀ w, w ∈ ws → wstate w) →
    let es := dg_iter_calls (atts c0) cond (map (λ w, (L0, w.2)) ws) in
    (∀ k L c, ws !! k = Some (L, c) → same_bg (take k (values es)) L0 L) →
    es = dg_iter_calls (atts c0) cond ws.
  Proof.
    intros H0 Hs es. pose proof (λ w Hw, wstate_ok w (Hs w Hw)) as Hr. assert (NoDup (atts c0)) as Hnd by apply Hg0.
    unfold es, dg_iter_calls. rewrite calls_map. cbn [fst snd]. intros Hb.
    apply (calls_bg (atts c0) Hnd simple_close cond (λ _, L0) (λ w, cxt_aclose w.2) (λ w, acl (abs w.2)) fst ws [] DgNew); [|done|].
    - intros w Hw. destruct (Hr w Hw) as [R1 R2]. split; [|done]. split; [done|]. intros R X. by apply simple_Hclose.
    - intros k [L c] Hk. by apply (Hb k L c).
  Qed.
  Lemma dg_calls_final L0 cs cf R : overM (atts c0) L0 → good cf → atts cf = atts c0 → (∀ c, c ∈ cs → state c ∧ rows_in (abs c) (abs cf)) →
    compute_dg_basis_simple cf (Some L0) (λ _, true) = Ok R →
    let es := dg_iter_calls (atts c0) (λ _, true) (map (pair L0) cs) in
    (∀ i, i ∈ values es → holds (abs cf) i) →
    values es `prefix_of` R ∧ (Stopped ∈ es → values es = R).
  Proof.
    intros HL0 Hgf Ef Hs HR es Hv. destruct cs as [|c1 cs].
    { cbn. split; [apply prefix_nil|by intros ?%elem_of_nil]. }
    assert (NoDup (atts c0)) as Hnd by apply Hg0.
    assert (∀ c, c ∈ c1 :: cs → state c) as Hs' by (intros c Hc; by apply Hs).
    assert (objs cf ≠ []) as Hne.
    { destruct (Hs c1) as [(H1 & _ & H3) H4]; [left|]. destruct (objs c1) as [|g l] eqn:Eo; [done|].
      destruct (H4 g) as (h & Hh & _).
      - change (g ∈ (list_to_set (objs c1) : gset name)). rewrite Eo. apply elem_of_list_to_set. left.
      - change (h ∈ (list_to_set (objs cf) : gset name)) in Hh. intros E. rewrite E in Hh. by apply elem_of_list_to_set, elem_of_nil in Hh. }
    assert (state cf) as Hsf by done.
    assert (∀ w, w ∈ map (pair L0) (c1 :: cs) → wstate w) as Hws.
    { intros w (c & -> & Hc)%elem_of_list_fmap. split; [done|]. by apply Hs'. }
    destruct (dg_calls_any (λ _, true) (map (pair L0) (c1 :: cs)) Hws) as ((m & E) & _ & _ & Hy). fold es in E, Hy.
    unfold compute_dg_basis_simple in HR. rewrite Ef in HR.
    assert (es = (calls (λ c, dgen_next (atts c0) simple_close (Some L0) (λ _, true) (cxt_aclose c)) (c1 :: cs) DgNew).1) as Ees.
    { unfold es, dg_iter_calls. by rewrite calls_map. }
    rewrite Ees. apply (calls_sim (atts c0) Hnd simple_close (λ _, true) L0 HL0 (simple_Hclose L0 HL0) cxt_aclose (λ c, acl (abs c)) (acl (abs cf)) (cxt_aclose cf)
      (state_reads cf Hsf) (λ _, eq_refl) (c1 :: cs) R); [|exact HR|].
    - intros c Hc. split; [apply state_reads, Hs', Hc|]. intros X HX. apply rows_acl; [by apply Hs|].
      destruct (Hs' c Hc) as (_ & Ea & _). change (list_to_set (atts c) = (list_to_set (atts cf) : gset name)). by rewrite Ea, Ef.
    - intros j Hj. rewrite <-Ees in Hj. pose proof (Hv j Hj) as Hh. apply elem_of_list_lookup in Hj as [k Hk].
      assert (es !! k = Some (Yielded j)) as He.
      { rewrite E. apply lookup_app_l_Some. apply map_lookup_Some. by exists j. }
      assert (k < length (c1 :: cs)) as Hlt.
      { apply lookup_lt_Some in He. unfold es, dg_iter_calls in He. by rewrite calls_length, map_length in He. }
      destruct (lookup_lt_is_Some_2 _ _ Hlt) as [c Hc]. destruct j as [P C].
      destruct (Hy k L0 c P C) as (H1 & H2 & _); [apply map_lookup_Some; by exists c|done|].
      assert (∀ c', atts c' = atts c0 → fM (abs c') = M) as EM.
      { intros c' Ea. change (fM (abs c')) with (list_to_set (atts c') : gset name). by rewrite Ea. }
      apply acl_holds in Hh; cbn [fst snd] in *; [done|by rewrite EM|].
      rewrite H2, EM by done. rewrite <-(EM c); [apply acl_sub|]. destruct (Hs' c) as (_ & Ea & _); [by eapply elem_of_list_lookup_2|done].
  Qed.
End contexts.
