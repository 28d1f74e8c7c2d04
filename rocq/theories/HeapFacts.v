(** * The heap model refines the value model *)
From Verif Require Import Py Spec ContextModel ContextSpec ContextOps HeapModel HeapSpec PyFacts ContextInit ContextMut.

Definition own (s : inst) (h : heap) : Prop :=
  i_objs s < hn h ∧ i_atts s < hn h ∧ i_np s < hn h ∧ i_objs s ≠ i_atts s.
(** [h'] has everything [h] has. *)
Definition grown (h h' : heap) : Prop :=
  hn h ≤ hn h' ∧ (∀ l, l < hn h → hl h' !! l = hl h !! l) ∧ (∀ l, l < hn h → ha h' !! l = ha h !! l).
Definition fresh (h : heap) (s' : inst) : Prop :=
  hn h ≤ i_objs s' ∧ hn h ≤ i_atts s' ∧ hn h ≤ i_np s'.
Definition framed (s : inst) (h : heap) (s' : inst) (h' : heap) : Prop :=
  hn h ≤ hn h'
  ∧ (∀ l, l < hn h → l ≠ i_objs s → l ≠ i_atts s → hl h' !! l = hl h !! l)
  ∧ (∀ l, l < hn h → l ≠ i_np s → ha h' !! l = ha h !! l)
  ∧ own s' h'
  ∧ (i_objs s' = i_objs s ∨ hn h ≤ i_objs s')
  ∧ (i_atts s' = i_atts s ∨ hn h ≤ i_atts s')
  ∧ (i_np s' = i_np s ∨ hn h ≤ i_np s').
Lemma framed_refl s h : own s h → framed s h s h.
Proof. unfold framed. naive_solver lia. Qed.
Lemma framed_trans s1 h1 s2 h2 s3 h3 :
  own s1 h1 → framed s1 h1 s2 h2 → framed s2 h2 s3 h3 → framed s1 h1 s3 h3.
Proof.
  unfold framed, own.
  intros (?&?&?&?) (?&L1&A1&?&Ho1&Ha1&Hn1) (?&L2&A2&?&Ho2&Ha2&Hn2). split_and!; try lia.
  - intros l ???. rewrite L2, L1; [done|lia..].
  - intros l ??. rewrite A2, A1; [done|lia..].
Qed.

Lemma h_init_spec t z ol al s h :
  ol < hn h → al < hn h →
  ∃ s' h' r, h_init t z ol al s h = ((s', h'), r) ∧
    match mk_context t z (hl h !!! ol) (hl h !!! al) with
    | Ok c => r = Ok tt ∧ view s' h' = c ∧ grown h h' ∧ fresh h s' ∧ own s' h'
    | Err e => r = Err e ∧ s' = s ∧ h' = h
    end.
Proof.
  intros Ho Ha. unfold h_init, mthen, rd_l, mk_context, lift, new_l, wr_l, new_a, become. cbn [hl ha hn].
  destruct (negb (length t =? _)); [by eauto 10|].
  destruct (match t with [] => false | r :: _ => _ end); [by eauto 10|].
  destruct (negb (rectangular t)); [by eauto 10|].
  eexists _, _, _. split; [reflexivity|]. cbn [hl ha hn]. split_and!; [done|..].
  - unfold view. cbn [i_objs i_atts i_np i_cross i_oidx i_aidx hl ha].
    rewrite (lookup_total_insert (ha h)). cbn [fst snd]. f_equal.
    + by rewrite lookup_total_insert.
    + rewrite lookup_total_insert_ne by lia. rewrite lookup_total_insert_ne by lia. by rewrite lookup_total_insert.
  - unfold grown. cbn [hl ha hn]. split_and!; [lia|..]; intros l Hl; rewrite !lookup_insert_ne by lia; done.
  - unfold fresh. cbn. lia.
  - unfold own. cbn. lia.
Qed.

(** ** One mutator *)
(** [m] does to the instance what [f] does to the value, and touches nothing else. *)
Definition sim (m : meth ()) (f : context → upd context ()) : Prop :=
  ∀ s h, own s h → ∃ s' h' r, m s h = ((s', h'), r) ∧ f (view s h) = (view s' h', r) ∧ framed s h s' h' ∧
    (r = Ok tt → fresh h s').
Definition sim0 (m : meth ()) (f : context → upd context ()) : Prop :=
  ∀ s h, own s h → ∃ s' h' r, m s h = ((s', h'), r) ∧ f (view s h) = (view s' h', r) ∧ framed s h s' h'.
Lemma sim_sim0 m f : sim m f → sim0 m f.
Proof. intros H s h Ho. destruct (H s h Ho) as (s' & h' & r & ?&?&?&?). by exists s', h', r. Qed.

(** The last call of every mutator. *)
Lemma h_init_end t z ol al s h s0 h0 :
  own s0 h0 → framed s0 h0 s h → ol < hn h → al < hn h →
  ∃ s' h' r, h_init t z ol al s h = ((s', h'), r) ∧
    reinit (view s h) t z (hl h !!! ol) (hl h !!! al) = (view s' h', r) ∧ framed s0 h0 s' h' ∧ (r = Ok tt → fresh h0 s').
Proof.
  intros H0 HF Ho Ha. destruct (h_init_spec t z ol al s h Ho Ha) as (s' & h' & r & E & HH).
  exists s', h', r. split; [done|]. unfold reinit.
  destruct (mk_context _ _ _ _) as [c|e].
  - destruct HH as (-> & <- & (Hn & HL & HA) & (F1 & F2 & F3) & HO). split; [done|].
    destruct HF as (Hn0 & L0 & A0 & _). split.
    + unfold framed. split_and!; try lia; try apply HO.
      * intros l ???. rewrite HL by lia. auto.
      * intros l ??. rewrite HA by lia. auto.
    + intros _. unfold fresh. lia.
  - destruct HH as (-> & -> & ->). done.
Qed.
Lemma framed_new_l s h v :
  own s h → framed s h s (Heap (<[hn h := v]> (hl h)) (ha h) (S (hn h))).
Proof.
  intros HO. unfold framed, own in *. cbn. split_and!; try lia; [|done].
  intros l ???. rewrite lookup_insert_ne by lia. done.
Qed.
Lemma view_new_l s h v : own s h → view s (Heap (<[hn h := v]> (hl h)) (ha h) (S (hn h))) = view s h.
Proof. intros (?&?&?&?). unfold view. cbn. by rewrite !lookup_total_insert_ne by lia. Qed.

Ltac open := unfold mthen, look, lift, this, new_l, wr_l, wr_a, new_a, rd_l, become, mok.
Ltac same HO := eexists _, _, _; split; [reflexivity|]; split; [reflexivity|]; split; [by apply framed_refl|discriminate].

Lemma sim_add_attribute col a : sim (h_add_attribute col a) (fun c => add_attribute c col a).
Proof.
  intros s h HO. unfold h_add_attribute, add_attribute. open.
  destruct (negb _); [same HO|]. cbn [hl ha hn].
  destruct (h_init_end (zip_with (λ (r : list bool) (b : bool), (r ++ [b])%list) (np (view s h)) col)
    match npz (view s h) with Some k => Some (S k) | None => Some 2 end (i_objs s) (hn h) s
    (Heap (<[hn h:=(atts (view s h) ++ [a])%list]> (hl h)) (ha h) (S (hn h))) s h) as (s' & h' & r & -> & E & HF & Hf);
    [done|by apply framed_new_l|unfold own in HO; cbn; lia..|].
  exists s', h', r. split; [done|]. rewrite <-E, view_new_l by done. cbn [hl]. split; [|done].
  rewrite lookup_total_insert, lookup_total_insert_ne by (unfold own in HO; lia). done.
Qed.
Lemma sim_add_object row o : sim (h_add_object row o) (fun c => add_object c row o).
Proof.
  intros s h HO. unfold h_add_object, add_object. open.
  assert (∀ t z, ∃ s' h' r,
    h_init t z (hn h) (i_atts s) s (Heap (<[hn h:=(objs (view s h) ++ [o])%list]> (hl h)) (ha h) (S (hn h))) = ((s', h'), r) ∧
    reinit (view s h) t z (objs (view s h) ++ [o])%list (atts (view s h)) = (view s' h', r) ∧ framed s h s' h' ∧ (r = Ok tt → fresh h s')) as H.
  { intros t z. destruct (h_init_end t z (hn h) (i_atts s) s
    (Heap (<[hn h:=(objs (view s h) ++ [o])%list]> (hl h)) (ha h) (S (hn h))) s h) as (s' & h' & r & -> & E & HF & Hf);
    [done|by apply framed_new_l|unfold own in HO; cbn; lia..|].
    exists s', h', r. split; [done|]. rewrite <-E, view_new_l by done. cbn [hl]. split; [|done].
    rewrite lookup_total_insert, lookup_total_insert_ne by (unfold own in HO; lia). done. }
  destruct (np (view s h)) as [|r0 rs]; [apply H|].
  destruct (negb _); [same HO|]. apply H.
Qed.
Lemma sim_set m f :
  (∀ s h, own s h → ∃ s1 h1 t z, framed s h s1 h1 ∧ m s h = h_init t z (i_objs s1) (i_atts s1) s1 h1 ∧
     f (view s h) = reinit (view s1 h1) t z (objs (view s1 h1)) (atts (view s1 h1))
     ∨ ∃ r, r ≠ Ok tt ∧ framed s h s1 h1 ∧ m s h = ((s1, h1), r) ∧ f (view s h) = (view s1 h1, r)) → sim m f.
Proof.
  intros H s h HO. destruct (H s h HO) as (s1 & h1 & t & z & [(HF & -> & E)|(r & Hr & HF & -> & E)]).
  - destruct (h_init_end t z (i_objs s1) (i_atts s1) s1 h1 s h) as (s' & h' & r & -> & E' & HF' & Hf);
      [done|done|apply HF..|]. exists s', h', r. split; [done|]. by rewrite E, <-E'.
  - exists s1, h1, r. done.
Qed.
Ltac bad HO := eexists _, _, [], None; right; eexists (Err _); split_and!; [discriminate|by apply framed_refl|reflexivity|reflexivity].
Lemma sim_set_attribute_extent e a : sim (h_set_attribute_extent e a) (fun c => set_attribute_extent c e a).
Proof.
  apply sim_set. intros s h HO. unfold h_set_attribute_extent, set_attribute_extent, h_reinit. open.
  destruct (_ ← mapM _ _; _) as [t|e']; [|bad HO].
  eexists s, (Heap (hl h) (<[i_np s := (t, npz (view s h))]> (ha h)) (hn h)), t, None. left. split_and!.
  - unfold framed, own in *. cbn. split_and!; try lia; [done|].
    intros l ??. rewrite lookup_insert_ne by done. done.
  - reflexivity.
  - unfold view. cbn. rewrite lookup_total_insert. done.
Qed.
Lemma sim_set_object_intent i o : sim (h_set_object_intent i o) (fun c => set_object_intent c i o).
Proof.
  apply sim_set. intros s h HO. unfold h_set_object_intent, set_object_intent, h_reinit. open.
  destruct (_ ← mapM _ _; _) as [t|e']; [|bad HO].
  eexists s, (Heap (hl h) (<[i_np s := (t, npz (view s h))]> (ha h)) (hn h)), t, (npz (view s h)). left. split_and!.
  - unfold framed, own in *. cbn. split_and!; try lia; [done|].
    intros l ??. rewrite lookup_insert_ne by done. done.
  - reflexivity.
  - unfold view. cbn. rewrite lookup_total_insert. done.
Qed.
(** The state after a new array and a write to one of the two lists. *)
Definition set_objs (s : inst) (h : heap) (a : arr) (v : list name) : inst * heap :=
  (Inst (i_objs s) (i_atts s) (hn h) (i_cross s) (i_oidx s) (i_aidx s),
   Heap (<[i_objs s := v]> (hl h)) (<[hn h := a]> (ha h)) (S (hn h))).
Definition set_atts (s : inst) (h : heap) (a : arr) (v : list name) : inst * heap :=
  (Inst (i_objs s) (i_atts s) (hn h) (i_cross s) (i_oidx s) (i_aidx s),
   Heap (<[i_atts s := v]> (hl h)) (<[hn h := a]> (ha h)) (S (hn h))).
Lemma set_objs_spec s h a v : own s h →
  framed s h (set_objs s h a v).1 (set_objs s h a v).2 ∧
  view (set_objs s h a v).1 (set_objs s h a v).2 = with_np_objs (view s h) a.1 a.2 v.
Proof.
  intros HO. split.
  - unfold framed, own in *. cbn. split_and!; try lia.
    + intros l ???. by rewrite lookup_insert_ne by done.
    + intros l ??. by rewrite lookup_insert_ne by lia.
  - unfold view, with_np_objs. cbn. rewrite !lookup_total_insert, lookup_total_insert_ne by apply HO. done.
Qed.
Lemma set_atts_spec s h a v : own s h →
  framed s h (set_atts s h a v).1 (set_atts s h a v).2 ∧
  view (set_atts s h a v).1 (set_atts s h a v).2 = with_np_atts (view s h) a.1 a.2 v.
Proof.
  intros HO. split.
  - unfold framed, own in *. cbn. split_and!; try lia.
    + intros l ???. by rewrite lookup_insert_ne by done.
    + intros l ??. by rewrite lookup_insert_ne by lia.
  - unfold view, with_np_atts. cbn. rewrite !lookup_total_insert, lookup_total_insert_ne by (destruct HO as (_ & _ & _ & HO); congruence). done.
Qed.
Lemma sim_delete_object o : sim (h_delete_object o) (fun c => delete_object c o).
Proof.
  apply sim_set. intros s h HO. unfold h_delete_object, delete_object, h_reinit, set_np. open.
  destruct (oind _ o) as [i|e']; [|bad HO]. destruct (i <? _); [|bad HO].
  set (a := (delete i (np (view s h)), match np (view s h) with [] => npz (view s h) | r :: _ => Some (length r) end)).
  destruct (set_objs_spec s h a (delete i (objs (view s h))) HO) as [HF HV].
  eexists _, _, _, None. left. split; [exact HF|]. split; [reflexivity|]. rewrite HV. reflexivity.
Qed.
Lemma sim_delete_attribute o : sim (h_delete_attribute o) (fun c => delete_attribute c o).
Proof.
  apply sim_set. intros s h HO. unfold h_delete_attribute, delete_attribute, h_reinit, set_np. open.
  destruct (_ ← aind _ o; _) as [[j [t z]]|e']; [|bad HO]. cbn [fst snd].
  destruct (set_atts_spec s h (t, z) (delete j (atts (view s h))) HO) as [HF HV].
  eexists _, _, _, None. left. split; [exact HF|]. split; [reflexivity|]. rewrite HV. reflexivity.
Qed.
Lemma sim_delete_attributes l : sim (h_delete_attributes l) (fun c => delete_attributes c l).
Proof.
  apply sim_set. intros s h HO. unfold h_delete_attributes, delete_attributes, h_reinit, set_np. open.
  destruct (_ ← mapM _ l; _) as [[j [t z]]|e']; [|bad HO]. cbn [fst snd].
  destruct (del_all _ _) as [ats r] eqn:Ed. cbn [fst snd].
  destruct (set_atts_spec s h (t, z) ats HO) as [HF HV].
  destruct r as [u|e].
  - eexists _, _, _, None. left. split; [exact HF|]. split; [reflexivity|]. rewrite HV. reflexivity.
  - eexists _, _, [], None. right. eexists. split; [|split; [exact HF|]]. 2: { split; [reflexivity|]. by rewrite HV. } done.
Qed.
Lemma sim_rename_object a b : sim (h_rename_object a b) (fun c => rename_object c a b).
Proof.
  apply sim_set. intros s h HO. unfold h_rename_object, rename_object, h_reinit. open.
  destruct (oind _ a) as [i|e']; [|bad HO]. destruct (i <? _); [|bad HO].
  eexists s, (Heap (<[i_objs s := <[i := b]> (objs (view s h))]> (hl h)) (ha h) (hn h)), _, _. left. split_and!.
  - unfold framed, own in *. cbn. split_and!; try lia; [|done].
    intros l ???. by rewrite lookup_insert_ne by done.
  - reflexivity.
  - unfold view, with_np_objs. cbn. rewrite !lookup_total_insert, lookup_total_insert_ne by apply HO. done.
Qed.
Lemma sim_rename_attribute a b : sim (h_rename_attribute a b) (fun c => rename_attribute c a b).
Proof.
  apply sim_set. intros s h HO. unfold h_rename_attribute, rename_attribute, h_reinit. open.
  destruct (aind _ a) as [i|e']; [|bad HO]. destruct (i <? _); [|bad HO].
  eexists s, (Heap (<[i_atts s := <[i := b]> (atts (view s h))]> (hl h)) (ha h) (hn h)), _, _. left. split_and!.
  - unfold framed, own in *. cbn. split_and!; try lia; [|done].
    intros l ???. by rewrite lookup_insert_ne by done.
  - reflexivity.
  - unfold view, with_np_atts. cbn. rewrite !lookup_total_insert, lookup_total_insert_ne by (destruct HO as (_ & _ & _ & HO); congruence). done.
Qed.
Lemma sim0_delete_objects l : sim0 (h_delete_objects l) (fun c => delete_objects_loop c l).
Proof.
  induction l as [|o l IH]; intros s h HO.
  - cbn. unfold mok. eexists _, _, _. split; [reflexivity|]. split; [reflexivity|]. by apply framed_refl.
  - cbn [h_delete_objects delete_objects_loop]. unfold mthen.
    destruct (sim_delete_object o s h HO) as (s1 & h1 & r & -> & -> & HF & _).
    destruct r as [u|e]; [|by eauto 10].
    destruct (IH s1 h1) as (s2 & h2 & r2 & -> & E & HF2); [apply HF|].
    exists s2, h2, r2. split_and!; [done|done|]. by eapply framed_trans.
Qed.
Lemma sim0_step o : sim0 (h_step o) (fun c => step c o).
Proof.
  destruct o; cbn [h_step step].
  - apply sim_sim0, sim_add_object.
  - apply sim_sim0, sim_add_attribute.
  - intros s h HO. unfold h_add_object_with_intent, add_object_with_intent, look, mthen. by apply (sim_sim0 _ _ (sim_add_object _ _)).
  - intros s h HO. unfold h_add_attribute_with_extent, add_attribute_with_extent, look, mthen. by apply (sim_sim0 _ _ (sim_add_attribute _ _)).
  - apply sim_sim0, sim_set_attribute_extent.
  - apply sim_sim0, sim_set_object_intent.
  - apply sim_sim0, sim_delete_object.
  - apply sim_sim0, sim_delete_attribute.
  - apply sim_sim0, sim_delete_attributes.
  - apply sim_sim0, sim_rename_object.
  - apply sim_sim0, sim_rename_attribute.
  - intros s h HO. unfold h_remove_empty_objects, remove_empty_objects, look, mthen, lift.
    destruct (_ ← mapM _ _; _) as [l|e].
    + by apply sim0_delete_objects.
    + eexists _, _, _. split; [reflexivity|]. split; [reflexivity|]. by apply framed_refl.
Qed.
Lemma step_fresh o s h s' h' : own s h → o ≠ OpRemoveEmptyObjects → h_step o s h = ((s', h'), Ok tt) → fresh h s'.
Proof.
  intros HO Ho. assert (∀ m f, sim m f → m s h = ((s', h'), Ok tt) → fresh h s') as HS.
  { intros m f Hs E. destruct (Hs s h HO) as (s1 & h1 & r & E1 & _ & _ & Hf). rewrite E in E1. injection E1 as <- <- <-. auto. }
  destruct o; cbn [h_step]; [..|done].
  - eapply HS, sim_add_object.
  - eapply HS, sim_add_attribute.
  - unfold h_add_object_with_intent, look, mthen. eapply HS, sim_add_object.
  - unfold h_add_attribute_with_extent, look, mthen. eapply HS, sim_add_attribute.
  - eapply HS, sim_set_attribute_extent.
  - eapply HS, sim_set_object_intent.
  - eapply HS, sim_delete_object.
  - eapply HS, sim_delete_attribute.
  - eapply HS, sim_delete_attributes.
  - eapply HS, sim_rename_object.
  - eapply HS, sim_rename_attribute.
Qed.

(** ** Derived contexts *)
Definition d_val (h : heap) (d : derivation nat inst) : derivation (list name) context :=
  match d with
  | DDeepcopy => DDeepcopy
  | DTranspose => DTranspose
  | DFiltered v mode => DFiltered (hl h !!! v) mode
  | DSub v => DSub (hl h !!! v)
  | DMul y => DMul (view y h)
  | DClarify => DClarify
  | DReduceObjects => DReduceObjects
  | DReduceAttributes => DReduceAttributes
  | DComplementary => DComplementary
  | DCompound => DCompound
  end.
Definition d_own (h : heap) (d : derivation nat inst) : Prop :=
  match d with
  | DFiltered v _ | DSub v => v < hn h
  | DMul y => own y h
  | _ => True
  end.
Lemma grown_refl h : grown h h.
Proof. unfold grown. naive_solver lia. Qed.
Lemma grown_trans h1 h2 h3 : grown h1 h2 → grown h2 h3 → grown h1 h3.
Proof.
  intros (?&L1&A1) (?&L2&A2). unfold grown. split_and!; [lia|..]; intros l ?.
  - rewrite L2, L1; [done|lia..].
  - rewrite A2, A1; [done|lia..].
Qed.
Lemma grown_new_l h v : grown h (Heap (<[hn h := v]> (hl h)) (ha h) (S (hn h))).
Proof. unfold grown. cbn. split_and!; [lia| |done]. intros l ?. by rewrite lookup_insert_ne by lia. Qed.
Lemma grown_new_l2 h v v' : grown h (Heap (<[S (hn h) := v']> (<[hn h := v]> (hl h))) (ha h) (S (S (hn h)))).
Proof. unfold grown. cbn. split_and!; [lia| |done]. intros l ?. by rewrite !lookup_insert_ne by lia. Qed.
Lemma grown_hl h h' l : grown h h' → l < hn h → hl h' !!! l = hl h !!! l.
Proof. intros (_ & H & _) Hl. by rewrite !lookup_total_alt, H. Qed.
Lemma grown_ha h h' l : grown h h' → l < hn h → ha h' !!! l = ha h !!! l.
Proof. intros (_ & _ & H) Hl. by rewrite !lookup_total_alt, H. Qed.
Lemma grown_view h h' s : grown h h' → own s h → view s h' = view s h.
Proof.
  intros HG (?&?&?&?). unfold view. by rewrite !(grown_hl h h'), (grown_ha h h') by done.
Qed.
Lemma grown_own h h' s : grown h h' → own s h → own s h'.
Proof. unfold own. intros (?&_). lia. Qed.

Lemma d_args_spec d s h :
  own s h → d_own h d →
  ∃ h' r, d_args d s h = ((s, h'), r) ∧ grown h h' ∧
    match r with
    | Ok (t, z, (ol, al)) => ol < hn h' ∧ al < hn h' ∧
        v_derive (view s h) (d_val h d) = mk_context t z (hl h' !!! ol) (hl h' !!! al)
    | Err e => v_derive (view s h) (d_val h d) = Err e
    end.
Proof.
  intros HO HD. pose proof HO as (?&?&?&?).
  destruct d; cbn [d_val d_own] in *; unfold d_args, v_derive; open; cbn [hl ha hn].
  - eexists _, _. split; [reflexivity|]. split; [by apply grown_new_l2|]. cbn [hl ha hn].
    split_and!; [lia..|]. rewrite !lookup_total_insert, lookup_total_insert_ne, lookup_total_insert by lia. done.
  - unfold transpose. destruct (mapM _ _) as [t|e].
    + eexists _, _. split; [reflexivity|]. split; [by apply grown_new_l2|]. cbn [hl ha hn mbind res_bind].
      split_and!; [lia..|]. rewrite !lookup_total_insert, lookup_total_insert_ne, lookup_total_insert by lia. done.
    + eexists _, _. split; [reflexivity|]. split; [by apply grown_new_l2|]. done.
  - unfold extract_subcontext_filtered_by_attributes. destruct (extract_by_attribute_values _ _ _) as [[os t]|e].
    + eexists _, _. split; [reflexivity|]. split; [by apply grown_new_l|]. cbn [hl ha hn mbind res_bind fst snd].
      split_and!; [lia..|]. rewrite lookup_total_insert, lookup_total_insert_ne by lia. done.
    + eexists _, _. split; [reflexivity|]. split; [by apply grown_refl|]. done.
  - unfold extract_subcontext. destruct (extract_subtable _ _) as [t|e].
    + eexists _, _. split; [reflexivity|]. split; [by apply grown_refl|]. done.
    + eexists _, _. split; [reflexivity|]. split; [by apply grown_refl|]. done.
  - unfold context_mul. destruct (mul_table _ _) as [t|e].
    + eexists _, _. split; [reflexivity|]. split; [by apply grown_refl|]. unfold own in HD. split_and!; [lia..|]. done.
    + eexists _, _. split; [reflexivity|]. split; [by apply grown_refl|]. done.
  - eexists _, _. split; [reflexivity|]. split; [by apply grown_new_l|]. cbn [hl ha hn].
    split_and!; [lia..|]. rewrite lookup_total_insert, lookup_total_insert_ne by lia. done.
  - unfold reduce_objects. destruct (reduced_rows _) as [[os t]|e].
    + eexists _, _. split; [reflexivity|]. split; [by apply grown_new_l|]. cbn [hl ha hn mbind res_bind fst snd].
      split_and!; [lia..|]. rewrite lookup_total_insert, lookup_total_insert_ne by lia. done.
    + eexists _, _. split; [reflexivity|]. split; [by apply grown_refl|]. done.
  - unfold reduce_attributes. destruct (transpose (view s h)) as [c1|e]; cbn [mbind res_bind].
    2: { eexists _, _. split; [reflexivity|]. split; [by apply grown_refl|]. done. }
    destruct (reduce_objects c1) as [c2|e]; cbn [mbind res_bind].
    2: { eexists _, _. split; [reflexivity|]. split; [by apply grown_refl|]. done. }
    unfold transpose. destruct (mapM _ _) as [t|e].
    + eexists _, _. split; [reflexivity|]. split; [by apply grown_new_l2|]. cbn [hl ha hn mbind res_bind].
      split_and!; [lia..|]. rewrite !lookup_total_insert, lookup_total_insert_ne, lookup_total_insert by lia. done.
    + eexists _, _. split; [reflexivity|]. split; [by apply grown_new_l2|]. done.
  - unfold complementary. destruct (mapM _ (atts (view s h))) as [ats|e]; cbn [mbind res_bind].
    2: { eexists _, _. split; [reflexivity|]. split; [by apply grown_refl|]. done. }
    destruct (mapM _ _) as [t|e]; cbn [mbind res_bind].
    2: { eexists _, _. split; [reflexivity|]. split; [by apply grown_refl|]. done. }
    eexists _, _. split; [reflexivity|]. split; [by apply grown_new_l|]. cbn [hl ha hn].
    split_and!; [lia..|]. rewrite lookup_total_insert, lookup_total_insert_ne by lia. done.
  - unfold compound. destruct (complementary _) as [cc|e]; cbn [mbind res_bind].
    2: { eexists _, _. split; [reflexivity|]. split; [by apply grown_refl|]. done. }
    destruct (mapM _ _) as [t|e]; cbn [mbind res_bind].
    2: { eexists _, _. split; [reflexivity|]. split; [by apply grown_refl|]. done. }
    eexists _, _. split; [reflexivity|]. split; [by apply grown_new_l|]. cbn [hl ha hn].
    split_and!; [lia..|]. rewrite lookup_total_insert, lookup_total_insert_ne by lia. done.
Qed.

(** ** Worlds *)
(** Nothing is shared. *)
Definition apart (s s' : inst) : Prop :=
  i_objs s ≠ i_objs s' ∧ i_objs s ≠ i_atts s' ∧ i_atts s ≠ i_objs s' ∧ i_atts s ≠ i_atts s' ∧ i_np s ≠ i_np s'.
Record separate (w : world) : Prop := {
  sep_own : ∀ x s, w_cxts w !! x = Some s → own s (w_heap w);
  sep_lists : ∀ v l, w_lists w !! v = Some l → l < hn (w_heap w);
  sep_tables : ∀ v l, w_tables w !! v = Some l → l < hn (w_heap w) ∧ (ha (w_heap w) !!! l).2 = None;
  sep_cxts : ∀ x y s s', w_cxts w !! x = Some s → w_cxts w !! y = Some s' → x ≠ y → apart s s';
  sep_list : ∀ v v' l, w_lists w !! v = Some l → w_lists w !! v' = Some l → v = v';
  sep_table : ∀ v v' l, w_tables w !! v = Some l → w_tables w !! v' = Some l → v = v';
  sep_list_cxt : ∀ v l x s, w_lists w !! v = Some l → w_cxts w !! x = Some s → l ≠ i_objs s ∧ l ≠ i_atts s;
  sep_table_cxt : ∀ v l x s, w_tables w !! v = Some l → w_cxts w !! x = Some s → l ≠ i_np s }.
Lemma separate_start : separate start.
Proof. split; cbn; intros; done. Qed.

Lemma map_at {A B} (f g : A → B) (l : list A) :
  (∀ i x, l !! i = Some x → f x = g x) → map f l = map g l.
Proof. intros H. apply map_ext_in. intros x (i & Hi)%elem_of_list_In%elem_of_list_lookup. eauto. Qed.

(** A larger heap alone changes nothing. *)
Lemma separate_grown w h' :
  separate w → grown (w_heap w) h' →
  separate (World h' (w_lists w) (w_tables w) (w_cxts w)) ∧
  seen (World h' (w_lists w) (w_tables w) (w_cxts w)) = seen w.
Proof.
  intros HS HG. destruct HS as [S1 S2 S3 S4 S5 S6 S7 S8]. split.
  - split; cbn; try done.
    + intros. eapply grown_own; eauto.
    + intros v l Hl. pose proof (S2 _ _ Hl). destruct HG. lia.
    + intros v l Hl. destruct (S3 _ _ Hl). split; [destruct HG; lia|]. by rewrite (grown_ha _ _ _ HG).
  - unfold seen. cbn. f_equal; apply map_at.
    + intros i l Hl. apply (grown_hl _ _ _ HG). eauto.
    + intros i l Hl. f_equal. apply (grown_ha _ _ _ HG). by eapply S3.
    + intros i s Hs. apply (grown_view _ _ _ HG). eauto.
Qed.
Lemma w_new_spec w t z ol al :
  separate w → ol < hn (w_heap w) → al < hn (w_heap w) →
  separate (w_new w t z ol al).1 ∧
  v_add (seen w) (mk_context t z (hl (w_heap w) !!! ol) (hl (w_heap w) !!! al)) =
    (seen (w_new w t z ol al).1, (w_new w t z ol al).2).
Proof.
  intros HS Ho Ha. unfold w_new.
  destruct (h_init_spec t z ol al no_inst (w_heap w) Ho Ha) as (s' & h' & r & -> & HH).
  destruct (mk_context _ _ _ _) as [c|e].
  - destruct HH as (-> & <- & HG & HF & HO). cbn [fst snd].
    destruct (separate_grown w h' HS HG) as [HS' HE]. split.
    + destruct HS as [S1 S2 S3 S4 S5 S6 S7 S8]. destruct HS' as [T1 T2 T3 T4 T5 T6 T7 T8]. cbn in *.
      assert (∀ x s, (w_cxts w ++ [s'])%list !! x = Some s →
        (x < length (w_cxts w) ∧ w_cxts w !! x = Some s) ∨ (x = length (w_cxts w) ∧ s = s')) as Hx.
      { intros x s [Hs|[Hl Hs]]%lookup_app_Some.
        - left. split; [by eapply lookup_lt_Some|done].
        - apply list_lookup_singleton_Some in Hs as [? <-]. right. split; [lia|done]. }
      unfold fresh in HF. split; cbn; try done.
      * intros x s [[_ Hs]|[_ ->]]%Hx; [eauto|done].
      * intros x y s1 s2 [[? Hs1]|[? ->]]%Hx [[? Hs2]|[? ->]]%Hx Hne; [by eauto|..|lia].
        -- pose proof (S1 _ _ Hs1). unfold own, apart in *. lia.
        -- pose proof (S1 _ _ Hs2). unfold own, apart in *. lia.
      * intros v l x s Hl [[_ Hs]|[_ ->]]%Hx; [by eauto|]. pose proof (S2 _ _ Hl). lia.
      * intros v l x s Hl [[_ Hs]|[_ ->]]%Hx; [by eauto|]. destruct (S3 _ _ Hl). lia.
    + rewrite <-HE. unfold v_add, seen. cbn. by rewrite map_app.
  - destruct HH as (-> & -> & ->). cbn [fst snd]. by destruct w.
Qed.

Lemma fmap_option_lookup {A B} (f : A → B) (l : list A) i : map f l !! i = f <$> l !! i.
Proof. apply list_lookup_fmap. Qed.

Lemma seen_list w v : v_lists (seen w) !! v = (λ r, hl (w_heap w) !!! r) <$> w_lists w !! v.
Proof. apply fmap_option_lookup. Qed.
Lemma seen_table w v : v_tables (seen w) !! v = (λ r, (ha (w_heap w) !!! r).1) <$> w_tables w !! v.
Proof. apply fmap_option_lookup. Qed.
Lemma seen_cxt w v : v_cxts (seen w) !! v = (λ s, view s (w_heap w)) <$> w_cxts w !! v.
Proof. apply fmap_option_lookup. Qed.
Lemma w_cmd_spec w k :
  separate w → separate (w_cmd w k).1 ∧ v_cmd (seen w) k = (seen (w_cmd w k).1, (w_cmd w k).2).
Proof.
  intros HS. pose proof HS as [S1 S2 S3 S4 S5 S6 S7 S8]. destruct k as [l|v l|t|v t|tv ov av|x o|x d]; cbn [w_cmd v_cmd].
  - pose proof (grown_new_l (w_heap w) l) as HG. destruct (separate_grown w _ HS HG) as [HS' HE].
    destruct HS' as [T1 T2 T3 T4 T5 T6 T7 T8]. cbn in *.
    assert (∀ v r, (w_lists w ++ [hn (w_heap w)])%list !! v = Some r →
        (v < length (w_lists w) ∧ w_lists w !! v = Some r) ∨ (v = length (w_lists w) ∧ r = hn (w_heap w))) as Hx.
    { intros v r [Hs|[Hl Hs]]%lookup_app_Some.
      - left. split; [by eapply lookup_lt_Some|done].
      - apply list_lookup_singleton_Some in Hs as [? <-]. right. split; [lia|done]. }
    split.
    + split; cbn; try done.
      * intros v r [[_ Hs]|[_ ->]]%Hx; [eauto|lia].
      * intros v v' r [[? Hs]|[-> ->]]%Hx [[? Hs']|[? ?]]%Hx; [by eauto|..|done]; subst.
        -- pose proof (S2 _ _ Hs). lia.
        -- pose proof (S2 _ _ Hs'). lia.
      * intros v r x s [[_ Hs]|[_ ->]]%Hx Hc; [by eauto|]. pose proof (S1 _ _ Hc). unfold own in *. lia.
    + pose proof (f_equal v_lists HE) as E1. pose proof (f_equal v_tables HE) as E2. pose proof (f_equal v_cxts HE) as E3.
      cbn in E1, E2, E3. unfold seen. cbn. rewrite map_app. cbn.
      rewrite lookup_total_insert. cbn [fst]. f_equal. f_equal; [congruence..|]; by rewrite <-?E2, ?E3.
  - assert (length (v_lists (seen w)) = length (w_lists w)) as -> by apply map_length. destruct (w_lists w !! v) as [r|] eqn:Er.
    + rewrite decide_True by (by eapply lookup_lt_Some). cbn [fst snd]. split.
      * split; cbn; done.
      * f_equal. unfold seen. cbn. f_equal.
        -- apply list_eq. intros i. destruct (decide (i = v)) as [->|Hi].
           ++ rewrite list_lookup_insert by (rewrite map_length; by eapply lookup_lt_Some).
              rewrite fmap_option_lookup, Er. cbn. by rewrite lookup_total_insert.
           ++ rewrite list_lookup_insert_ne by done. rewrite !fmap_option_lookup.
              destruct (w_lists w !! i) as [r'|] eqn:Er'; [|done]. cbn. f_equal.
              rewrite lookup_total_insert_ne; [done|]. intros <-. by apply Hi, eq_sym, (S5 _ _ r).
        -- apply map_at. intros i s Hs. unfold view. cbn. destruct (S7 _ _ _ _ Er Hs).
           by rewrite !lookup_total_insert_ne by done.
    + rewrite decide_False; [done|]. apply lookup_ge_None in Er. lia.
  - assert (grown (w_heap w) (Heap (hl (w_heap w)) (<[hn (w_heap w) := (t, None)]> (ha (w_heap w))) (S (hn (w_heap w))))) as HG.
    { unfold grown. cbn. split_and!; [lia|done|]. intros l ?. by rewrite lookup_insert_ne by lia. }
    destruct (separate_grown w _ HS HG) as [HS' HE].
    destruct HS' as [T1 T2 T3 T4 T5 T6 T7 T8]. cbn in *.
    assert (∀ v r, (w_tables w ++ [hn (w_heap w)])%list !! v = Some r →
        (v < length (w_tables w) ∧ w_tables w !! v = Some r) ∨ (v = length (w_tables w) ∧ r = hn (w_heap w))) as Hx.
    { intros v r [Hs|[Hl Hs]]%lookup_app_Some.
      - left. split; [by eapply lookup_lt_Some|done].
      - apply list_lookup_singleton_Some in Hs as [? <-]. right. split; [lia|done]. }
    split.
    + split; cbn; try done.
      * intros v r [[_ Hs]|[_ ->]]%Hx; [eauto|]. rewrite lookup_total_insert. split; [lia|done].
      * intros v v' r [[? Hs]|[-> ->]]%Hx [[? Hs']|[? ?]]%Hx; [by eauto|..|done]; subst.
        -- destruct (S3 _ _ Hs). lia.
        -- destruct (S3 _ _ Hs'). lia.
      * intros v r x s [[_ Hs]|[_ ->]]%Hx Hc; [by eauto|]. pose proof (S1 _ _ Hc). unfold own in *. lia.
    + pose proof (f_equal v_lists HE) as E1. pose proof (f_equal v_tables HE) as E2. pose proof (f_equal v_cxts HE) as E3.
      cbn in E1, E2, E3. unfold seen. cbn. rewrite map_app. cbn.
      rewrite lookup_total_insert. cbn [fst]. f_equal. f_equal; [congruence..|]; by rewrite <-?E2, ?E3.
  - assert (length (v_tables (seen w)) = length (w_tables w)) as -> by apply map_length. destruct (w_tables w !! v) as [r|] eqn:Er.
    + rewrite decide_True by (by eapply lookup_lt_Some). cbn [fst snd]. split.
      * split; cbn; try done. intros v' l Hl. destruct (S3 _ _ Hl). split; [done|].
        destruct (decide (r = l)) as [->|]; [by rewrite lookup_total_insert|by rewrite lookup_total_insert_ne].
      * f_equal. unfold seen. cbn. f_equal.
        -- apply list_eq. intros i. destruct (decide (i = v)) as [->|Hi].
           ++ rewrite list_lookup_insert by (rewrite map_length; by eapply lookup_lt_Some).
              rewrite fmap_option_lookup, Er. cbn. by rewrite lookup_total_insert.
           ++ rewrite list_lookup_insert_ne by done. rewrite !fmap_option_lookup.
              destruct (w_tables w !! i) as [r'|] eqn:Er'; [|done]. cbn. f_equal.
              rewrite lookup_total_insert_ne; [done|]. intros <-. by apply Hi, eq_sym, (S6 _ _ r).
        -- apply map_at. intros i s Hs. unfold view. cbn.
           rewrite !lookup_total_insert_ne by (by eapply S8). done.
    + rewrite decide_False; [done|]. apply lookup_ge_None in Er. lia.
  - rewrite seen_table, !seen_list.
    destruct (w_tables w !! tv) as [t|] eqn:Et; cbn; [|done].
    destruct (w_lists w !! ov) as [o|] eqn:Eo; cbn; [|done].
    destruct (w_lists w !! av) as [a|] eqn:Ea; cbn; [|done].
    destruct (S3 _ _ Et) as [_ Hz]. destruct (ha (w_heap w) !!! t) as [t0 z0]. cbn in Hz |- *. subst z0. apply w_new_spec; eauto.
  - rewrite seen_cxt.
    destruct (w_cxts w !! x) as [s|] eqn:Es; cbn [fmap option_fmap option_map]; [|done].
    destruct (sim0_step o s (w_heap w) (S1 _ _ Es)) as (s' & h' & r & -> & E & HF). rewrite E. cbn [fst snd].
    pose proof (S1 _ _ Es) as HO.
    destruct HF as (Hn & HL & HA & HO' & F1 & F2 & F3).
    assert (∀ y s1, y ≠ x → w_cxts w !! y = Some s1 → view s1 h' = view s1 (w_heap w)) as HV.
    { intros y s1 Hy Hs1. destruct (S4 _ _ _ _ Hs1 Es Hy) as (?&?&?&?&?). destruct (S1 _ _ Hs1) as (?&?&?&?).
      unfold view. rewrite !lookup_total_alt, !HL, HA by done. done. }
    assert (∀ y s1, <[x:=s']> (w_cxts w) !! y = Some s1 → (y = x ∧ s1 = s') ∨ (y ≠ x ∧ w_cxts w !! y = Some s1)) as Hx.
    { intros y s1. rewrite list_lookup_insert_Some. naive_solver. }
    split.
    + split; cbn; try done.
      * intros y s1 [[-> ->]|[_ Hs1]]%Hx; [done|]. pose proof (S1 _ _ Hs1). unfold own in *. lia.
      * intros v l Hl. pose proof (S2 _ _ Hl). lia.
      * intros v l Hl. destruct (S3 _ _ Hl). split; [lia|]. pose proof (S8 _ _ _ _ Hl Es).
        by rewrite lookup_total_alt, HA, <-lookup_total_alt.
      * intros y z s1 s2 [[-> ->]|[? Hs1]]%Hx [[-> ->]|[? Hs2]]%Hx Hne; [done|..].
        -- pose proof (S1 _ _ Hs2). pose proof (S4 _ _ _ _ Es Hs2 Hne). unfold own, apart in *. lia.
        -- pose proof (S1 _ _ Hs1). pose proof (S4 _ _ _ _ Hs1 Es Hne). unfold own, apart in *. lia.
        -- by eapply S4.
      * intros v l y s1 Hl [[-> ->]|[? Hs1]]%Hx; [|by eauto].
        pose proof (S2 _ _ Hl). pose proof (S7 _ _ _ _ Hl Es). lia.
      * intros v l y s1 Hl [[-> ->]|[? Hs1]]%Hx; [|by eauto].
        destruct (S3 _ _ Hl). pose proof (S8 _ _ _ _ Hl Es). lia.
    + f_equal. unfold seen. cbn. f_equal.
      * apply map_at. intros i l Hl. destruct (S7 _ _ _ _ Hl Es). rewrite !lookup_total_alt, HL; [done|by eauto|done..].
      * apply map_at. intros i l Hl. destruct (S3 _ _ Hl). pose proof (S8 _ _ _ _ Hl Es). by rewrite !lookup_total_alt, HA.
      * apply list_eq. intros i. destruct (decide (i = x)) as [->|Hi].
        -- rewrite list_lookup_insert by (rewrite map_length; by eapply lookup_lt_Some).
           rewrite fmap_option_lookup, list_lookup_insert by (by eapply lookup_lt_Some). done.
        -- rewrite list_lookup_insert_ne by done. rewrite !fmap_option_lookup, list_lookup_insert_ne by done.
           destruct (w_cxts w !! i) as [s1|] eqn:Es1; [|done]. cbn. f_equal. symmetry. by eapply HV.
  - rewrite seen_cxt.
    destruct (w_cxts w !! x) as [s|] eqn:Es; cbn [fmap option_fmap option_map]; [|done].
    assert (match d_map (λ v, w_lists w !! v) (λ y, w_cxts w !! y) d with
      | Some d' => d_own (w_heap w) d' ∧ d_map (λ v, v_lists (seen w) !! v) (λ y, v_cxts (seen w) !! y) d = Some (d_val (w_heap w) d')
      | None => d_map (λ v, v_lists (seen w) !! v) (λ y, v_cxts (seen w) !! y) d = None end) as HD.
    { destruct d as [| |v m|v|y| | | | |]; cbn [d_map]; try done.
      - rewrite seen_list. destruct (w_lists w !! v) eqn:E; cbn; [|done]. split; [by eauto|done].
      - rewrite seen_list. destruct (w_lists w !! v) eqn:E; cbn; [|done]. split; [by eauto|done].
      - rewrite seen_cxt. destruct (w_cxts w !! y) eqn:E; cbn; [|done]. split; [by eauto|done]. }
    destruct (d_map (λ v, w_lists w !! v) _ d) as [d'|]; [|by rewrite HD].
    destruct HD as [HO HD]. rewrite HD.
    destruct (d_args_spec d' s (w_heap w) (S1 _ _ Es) HO) as (h' & r & -> & HG & Hr).
    rewrite list_insert_id by done. destruct (separate_grown w h' HS HG) as [HS' HE].
    destruct r as [[[t z] [ol al]]|e].
    + destruct Hr as (? & ? & ->). rewrite <-HE. apply w_new_spec; done.
    + rewrite Hr. cbn [v_add fst snd]. rewrite HE. done.
Qed.
Lemma w_run_spec p w :
  separate w → separate (w_run w p).1 ∧ v_run (seen w) p = (seen (w_run w p).1, (w_run w p).2).
Proof.
  revert w. induction p as [|k p IH]; intros w HS; [done|]. cbn [w_run v_run].
  destruct (w_cmd_spec w k HS) as [HS1 E]. rewrite E.
  destruct (w_cmd w k) as [w1 r]. cbn [fst snd] in *.
  destruct (IH w1 HS1) as [HS2 E2]. rewrite E2. destruct (w_run w1 p) as [w2 rs]. done.
Qed.

(** ** Consistency in every program *)
Definition cmd_ok (k : cmd) : Prop := match k with CMut _ o => op_ok o | _ => True end.
Lemma v_derive_wf c d c' : v_derive c d = Ok c' → wf c'.
Proof.
  assert (∀ A (m : res A) f, (∀ x c1, f x = Ok c1 → wf c1) → m ≫= f = Ok c' → wf c') as HB.
  { intros A [x|e] f Hf; cbn; [apply Hf|done]. }
  destruct d; cbn [v_derive].
  - apply mk_context_wf.
  - apply HB. intros ? ?. apply mk_context_wf.
  - apply HB. intros [? ?] ?. apply mk_context_wf.
  - apply HB. intros ? ?. apply mk_context_wf.
  - apply HB. intros ? ?. apply mk_context_wf.
  - apply mk_context_wf.
  - apply HB. intros [? ?] ?. apply mk_context_wf.
  - unfold reduce_attributes. destruct (transpose c) as [c1|]; cbn [mbind res_bind]; [|done].
    destruct (reduce_objects c1) as [c2|]; cbn [mbind res_bind]; [|done].
    apply HB. intros ? ?. apply mk_context_wf.
  - unfold complementary. destruct (mapM _ (atts c)); cbn [mbind res_bind]; [|done].
    apply HB. intros ? ?. apply mk_context_wf.
  - unfold compound. destruct (complementary c); cbn [mbind res_bind]; [|done].
    apply HB. intros ? ?. apply mk_context_wf.
Qed.
Lemma v_cmd_wf s k : cmd_ok k → Forall wf (v_cxts s) → Forall wf (v_cxts (v_cmd s k).1).
Proof.
  assert (∀ r, (∀ c, r = Ok c → wf c) → Forall wf (v_cxts s) → Forall wf (v_cxts (v_add s r).1)) as HA.
  { intros [c|e] H HF; cbn; [|done]. apply Forall_app. split; [done|]. constructor; [auto|constructor]. }
  intros Hk HF. destruct k as [l|v l|t|v t|tv ov av|x o|x d]; cbn [v_cmd].
  - done.
  - by case_decide.
  - done.
  - by case_decide.
  - repeat (case_match; [|done]). apply HA; [|done]. intros c'. apply mk_context_wf.
  - destruct (v_cxts s !! x) as [c|] eqn:E; [|done]. cbn. apply Forall_insert; [done|].
    destruct (step c o) as [c' r] eqn:Es. eapply step_wf; [|exact Hk|exact Es].
    by eapply (Forall_lookup_1 _ _ _ _ HF).
  - repeat (case_match; [|done]). apply HA; [|done]. intros c'. apply v_derive_wf.
Qed.
Lemma v_run_wf p s : Forall cmd_ok p → Forall wf (v_cxts s) → Forall wf (v_cxts (v_run s p).1).
Proof.
  intros Hp. revert s. induction Hp as [|k p Hk _ IH]; intros s HF; [done|]. cbn [v_run].
  pose proof (v_cmd_wf s k Hk HF) as H1. destruct (v_cmd s k) as [s1 r]. cbn [fst] in H1.
  pose proof (IH s1 H1) as H2. destruct (v_run s1 p) as [s2 rs]. done.
Qed.
Lemma seen_start : seen start = Values [] [] [].
Proof. done. Qed.
Lemma run_values p : v_run (Values [] [] []) p = (seen (w_run start p).1, (w_run start p).2).
Proof. rewrite <-seen_start. apply w_run_spec, separate_start. Qed.
Lemma run_separate p : separate (w_run start p).1.
Proof. apply w_run_spec, separate_start. Qed.
Lemma run_wf_all p : Forall cmd_ok p → Forall wf (v_cxts (seen (w_run start p).1)).
Proof.
  intros Hp. pose proof (v_run_wf p (Values [] [] []) Hp) as H. rewrite run_values in H. apply H. constructor.
Qed.

(** Copies. *)
Lemma deepcopy_same c : wf c → distinct c →
  ∃ d, v_derive c DDeepcopy = Ok d ∧ objs d = objs c ∧ atts d = atts c ∧ np d = np c ∧ cross d = cross c
    ∧ oidx d = oidx c ∧ aidx d = aidx c.
Proof.
  intros Hwf [Ho Ha]. cbn [v_derive].
  destruct (mk_context_ok (np c) (npz c) (objs c) (atts c)) as [d Hd].
  { apply Hwf. }
  { intros r (i & Hi)%elem_of_list_lookup. by eapply wf_cols. }
  exists d. split; [done|]. pose proof (mk_context_wf _ _ _ _ _ Hd) as Hwd.
  apply mk_context_Ok in Hd as (_ & _ & Eo & Ea & En & Ec & _ & Eoi & Eai).
  rewrite uniquify_NoDup in Eo by done. rewrite uniquify_NoDup in Ea by done.
  split_and!; [done..|by rewrite Ec, (wf_cross c)| |].
  - apply map_eq. intros x. apply option_eq. intros i.
    assert (∀ e, wf e → objs e = objs c → oidx e !! x = Some i ↔ objs c !! i = Some x) as H.
    { intros e He Eq. rewrite <-Eq. split; [apply (wf_oidx_pos e He)|]. intros Hi.
      destruct (proj2 (wf_oidx e He x)) as [j Hj]; [by eapply elem_of_list_lookup_2|].
      rewrite Hj. f_equal. apply (wf_oidx_pos e He) in Hj. rewrite <-Eq in Ho. exact (NoDup_lookup _ _ _ _ Ho Hj Hi). }
    rewrite (H d), (H c); done.
  - apply map_eq. intros x. apply option_eq. intros i.
    assert (∀ e, wf e → atts e = atts c → aidx e !! x = Some i ↔ atts c !! i = Some x) as H.
    { intros e He Eq. rewrite <-Eq. split; [apply (wf_aidx_pos e He)|]. intros Hi.
      destruct (proj2 (wf_aidx e He x)) as [j Hj]; [by eapply elem_of_list_lookup_2|].
      rewrite Hj. f_equal. apply (wf_aidx_pos e He) in Hj. rewrite <-Eq in Ha. exact (NoDup_lookup _ _ _ _ Ha Hj Hi). }
    rewrite (H d), (H c); done.
Qed.

(** ** References obtained from a context *)
Definition put_list (h : heap) (r : nat) (l : list name) : heap := Heap (<[r := l]> (hl h)) (ha h) (hn h).
Lemma put_other w r l :
  (∀ x s, w_cxts w !! x = Some s → r ≠ i_objs s ∧ r ≠ i_atts s) →
  v_cxts (seen (World (put_list (w_heap w) r l) (w_lists w) (w_tables w) (w_cxts w))) = v_cxts (seen w).
Proof.
  intros H. cbn. apply map_at. intros i s Hs. destruct (H _ _ Hs). unfold view. cbn.
  by rewrite !lookup_total_insert_ne by done.
Qed.
Lemma detached w x o r s :
  separate w → w_cxts w !! x = Some s → r = i_objs s ∨ r = i_atts s → o ≠ OpRemoveEmptyObjects →
  (w_cmd w (CMut x o)).2 = Ok tt →
  ∀ y s1, w_cxts (w_cmd w (CMut x o)).1 !! y = Some s1 → r ≠ i_objs s1 ∧ r ≠ i_atts s1.
Proof.
  intros HS Hs Hr Ho. cbn [w_cmd]. rewrite Hs. pose proof (sep_own _ HS _ _ Hs) as HO.
  destruct (h_step o s (w_heap w)) as [[s' h'] r'] eqn:E. cbn [fst snd]. intros ->.
  pose proof (step_fresh _ _ _ _ _ HO Ho E) as HF. intros y s1. cbn [w_cxts].
  intros [(-> & -> & _)|[Hne Hs1]]%list_lookup_insert_Some.
  - unfold fresh, own in *. lia.
  - destruct (sep_cxts _ HS _ _ _ _ Hs Hs1) as (?&?&?&?&?); [congruence|]. naive_solver.
Qed.
Lemma cmut_eq w x o s s' h' r :
  w_cxts w !! x = Some s → h_step o s (w_heap w) = ((s', h'), r) →
  w_cmd w (CMut x o) = (World h' (w_lists w) (w_tables w) (<[x := s']> (w_cxts w)), r).
Proof. intros Hs E. cbn [w_cmd]. by rewrite Hs, E. Qed.
Lemma cput_eq w v l r :
  w_lists w !! v = Some r →
  w_cmd w (CPutList v l) = (World (put_list (w_heap w) r l) (w_lists w) (w_tables w) (w_cxts w), Ok tt).
Proof. intros Hs. cbn [w_cmd]. by rewrite Hs. Qed.
Lemma detached_objects p x o s l :
  let w := (w_run start p).1 in
  w_cxts w !! x = Some s → o ≠ OpRemoveEmptyObjects →
  let w1 := (w_cmd (w_objects w x) (CMut x o)).1 in
  (w_cmd (w_objects w x) (CMut x o)).2 = Ok tt →
  v_cxts (seen (w_cmd w1 (CPutList (length (w_lists w)) l)).1) = v_cxts (seen w1).
Proof.
  intros w Hs Ho w1 Hok. pose proof (run_separate p) as HS. fold w in HS.
  destruct (h_step o s (w_heap w)) as [[s' h'] r'] eqn:E.
  pose proof (detached w x o (i_objs s) s HS Hs (or_introl eq_refl) Ho) as HD.
  rewrite (cmut_eq w x o s s' h' r' Hs E) in HD.
  set (wv := w_objects w x) in *.
  assert (wv = World (w_heap w) (w_lists w ++ [i_objs s])%list (w_tables w) (w_cxts w)) as Hv by (unfold wv, w_objects; by rewrite Hs).
  pose proof (cmut_eq wv x o s s' h' r') as E1. rewrite Hv in E1. specialize (E1 Hs E). rewrite <-Hv in E1.
  subst w1. rewrite E1 in Hok |- *. rewrite Hv. cbn [fst snd w_lists w_tables w_cxts w_heap] in *.
  rewrite (cput_eq _ (length (w_lists w)) l (i_objs s)); [|cbn [w_lists]; by rewrite lookup_app_r, Nat.sub_diag by lia].
  cbn [fst]. rewrite put_other; [done|]. cbn [w_cxts]. by apply HD.
Qed.
Lemma detached_attributes p x o s l :
  let w := (w_run start p).1 in
  w_cxts w !! x = Some s → o ≠ OpRemoveEmptyObjects →
  let w1 := (w_cmd (w_attributes w x) (CMut x o)).1 in
  (w_cmd (w_attributes w x) (CMut x o)).2 = Ok tt →
  v_cxts (seen (w_cmd w1 (CPutList (length (w_lists w)) l)).1) = v_cxts (seen w1).
Proof.
  intros w Hs Ho w1 Hok. pose proof (run_separate p) as HS. fold w in HS.
  destruct (h_step o s (w_heap w)) as [[s' h'] r'] eqn:E.
  pose proof (detached w x o (i_atts s) s HS Hs (or_intror eq_refl) Ho) as HD.
  rewrite (cmut_eq w x o s s' h' r' Hs E) in HD.
  set (wv := w_attributes w x) in *.
  assert (wv = World (w_heap w) (w_lists w ++ [i_atts s])%list (w_tables w) (w_cxts w)) as Hv by (unfold wv, w_attributes; by rewrite Hs).
  pose proof (cmut_eq wv x o s s' h' r') as E1. rewrite Hv in E1. specialize (E1 Hs E). rewrite <-Hv in E1.
  subst w1. rewrite E1 in Hok |- *. rewrite Hv. cbn [fst snd w_lists w_tables w_cxts w_heap] in *.
  rewrite (cput_eq _ (length (w_lists w)) l (i_atts s)); [|cbn [w_lists]; by rewrite lookup_app_r, Nat.sub_diag by lia].
  cbn [fst]. rewrite put_other; [done|]. cbn [w_cxts]. by apply HD.
Qed.
(** Until then, only the context asked for can be reached. *)
Lemma reached_objects p x s l y :
  let w := (w_run start p).1 in
  w_cxts w !! x = Some s → y ≠ x →
  v_cxts (seen (w_cmd (w_objects w x) (CPutList (length (w_lists w)) l)).1) !! y = v_cxts (seen w) !! y.
Proof.
  intros w Hs Hy. pose proof (run_separate p) as HS. fold w in HS.
  unfold w_objects. rewrite Hs. rewrite (cput_eq _ _ l (i_objs s)); [|cbn [w_lists]; by rewrite lookup_app_r, Nat.sub_diag by lia].
  cbn [fst]. rewrite !seen_cxt. cbn [w_cxts w_heap].
  destruct (w_cxts w !! y) as [s1|] eqn:Es; [|done]. cbn. f_equal.
  destruct (sep_cxts _ HS _ _ _ _ Hs Es) as (?&?&?&?&?); [congruence|]. unfold view. cbn.
  by rewrite !lookup_total_insert_ne by done.
Qed.

(** ** What a command leaves alone *)
Lemma run_cmd p k :
  let w := (w_run start p).1 in v_cmd (seen w) k = (seen (w_cmd w k).1, (w_cmd w k).2).
Proof. intros w. apply w_cmd_spec, run_separate. Qed.
Lemma mutation_local p x o :
  let w := (w_run start p).1 in
  let w' := (w_cmd w (CMut x o)).1 in
  v_lists (seen w') = v_lists (seen w) ∧ v_tables (seen w') = v_tables (seen w) ∧
  ∀ y, y ≠ x → v_cxts (seen w') !! y = v_cxts (seen w) !! y.
Proof.
  intros w w'. pose proof (f_equal fst (run_cmd p (CMut x o))) as E. fold w in E. cbn [fst] in E. fold w' in E. rewrite <-E.
  cbn [v_cmd]. destruct (v_cxts (seen w) !! x); cbn [fst v_lists v_tables v_cxts]; [|done].
  split_and!; [done..|]. intros y Hy. by rewrite list_lookup_insert_ne.
Qed.
Lemma writes_local p v l t :
  let w := (w_run start p).1 in
  v_cxts (seen (w_cmd w (CPutList v l)).1) = v_cxts (seen w) ∧
  v_cxts (seen (w_cmd w (CPutTable v t)).1) = v_cxts (seen w).
Proof.
  intros w. split.
  - pose proof (f_equal fst (run_cmd p (CPutList v l))) as E. fold w in E. cbn [fst] in E. rewrite <-E. cbn [v_cmd]. by case_decide.
  - pose proof (f_equal fst (run_cmd p (CPutTable v t))) as E. fold w in E. cbn [fst] in E. rewrite <-E. cbn [v_cmd]. by case_decide.
Qed.
Lemma derivation_fresh p x d :
  let w := (w_run start p).1 in
  let w' := (w_cmd w (CDerive x d)).1 in
  v_lists (seen w') = v_lists (seen w) ∧ v_tables (seen w') = v_tables (seen w) ∧
  ∃ l, v_cxts (seen w') = (v_cxts (seen w) ++ l)%list.
Proof.
  intros w w'. pose proof (f_equal fst (run_cmd p (CDerive x d))) as E. fold w in E. cbn [fst] in E. fold w' in E. rewrite <-E.
  cbn [v_cmd].
  assert (∀ r, v_lists (v_add (seen w) r).1 = v_lists (seen w) ∧ v_tables (v_add (seen w) r).1 = v_tables (seen w) ∧
    ∃ l, v_cxts (v_add (seen w) r).1 = (v_cxts (seen w) ++ l)%list) as H.
  { intros [c|e]; cbn [v_add fst v_lists v_tables v_cxts]; split_and!; [done|done|by eexists|done|done|].
    exists []. by rewrite app_nil_r. }
  destruct (v_cxts (seen w) !! x); [|apply (H (Err KeyError))].
  destruct (d_map _ _ d); [apply H|apply (H (Err KeyError))].
Qed.
Lemma cputt_eq w v t r :
  w_tables w !! v = Some r →
  w_cmd w (CPutTable v t) = (World (Heap (hl (w_heap w)) (<[r := (t, None)]> (ha (w_heap w))) (hn (w_heap w)))
    (w_lists w) (w_tables w) (w_cxts w), Ok tt).
Proof. intros Hs. cbn [w_cmd]. by rewrite Hs. Qed.
Lemma detached_table p x o s t :
  let w := (w_run start p).1 in
  w_cxts w !! x = Some s → o ≠ OpRemoveEmptyObjects →
  let w1 := (w_cmd (w_table w x) (CMut x o)).1 in
  (w_cmd (w_table w x) (CMut x o)).2 = Ok tt →
  v_cxts (seen (w_cmd w1 (CPutTable (length (w_tables w)) t)).1) = v_cxts (seen w1).
Proof.
  intros w Hs Ho w1 Hok. pose proof (run_separate p) as HS. fold w in HS.
  destruct (h_step o s (w_heap w)) as [[s' h'] r'] eqn:E.
  set (wv := w_table w x) in *.
  assert (wv = World (w_heap w) (w_lists w) (w_tables w ++ [i_np s])%list (w_cxts w)) as Hv by (unfold wv, w_table; by rewrite Hs).
  pose proof (cmut_eq wv x o s s' h' r') as E1. rewrite Hv in E1. specialize (E1 Hs E). rewrite <-Hv in E1.
  subst w1. rewrite E1 in Hok |- *. rewrite Hv. cbn [fst snd w_lists w_tables w_cxts w_heap] in *. subst r'.
  pose proof (sep_own _ HS _ _ Hs) as HO. pose proof (step_fresh _ _ _ _ _ HO Ho E) as HF.
  rewrite (cputt_eq _ (length (w_tables w)) t (i_np s)); [|cbn [w_tables]; by rewrite lookup_app_r, Nat.sub_diag by lia].
  cbn. apply map_at. intros y s1.
  assert (<[x := s']> (w_cxts w) !! y = Some s1 → i_np s ≠ i_np s1) as H.
  { intros [(-> & -> & _)|[Hne Hs1]]%list_lookup_insert_Some.
    - unfold fresh, own in *. lia.
    - destruct (sep_cxts _ HS _ _ _ _ Hs Hs1) as (?&?&?&?&?); [congruence|]. done. }
  intros Hy%H. unfold view. cbn. by rewrite !lookup_total_insert_ne by done.
Qed.
