(** * Contexts and lattices as sequences: the final statements (C144) *)
From Verif Require Import Py PyFacts Spec SpecFacts ContextModel ContextSpec ContextOps ContextFacts ContextInit ContextFinal
  LatticeSpec LatticeModel NorrisFacts LatticeFacts ShowModel SeqModel Properties_Context Properties_Lattice Properties_Show.

Lemma seq_list_lookup {A} (item : Z → res A) l :
  (∀ i, item (Z.of_nat i) = get_or IndexError (l !! i)) →
  ∀ fuel i, i ≤ length l → length l - i < fuel → seq_list item fuel i = Some (Ok (drop i l)).
Proof.
  intros Hit. induction fuel as [|fuel IH]; intros i Hi Hf; [lia|]. cbn [seq_list]. rewrite Hit.
  destruct (l !! i) as [x|] eqn:E; cbn [get_or].
  - pose proof (lookup_lt_Some _ _ _ E). rewrite IH by lia. by rewrite (drop_S l x i E).
  - apply lookup_ge_None in E. by rewrite drop_ge.
Qed.
Lemma position_nat n i : position n (Z.of_nat i) = if decide (i < n) then Ok i else Err IndexError.
Proof.
  unfold position. rewrite (proj2 (Z.ltb_ge (Z.of_nat i) 0)) by lia. rewrite (proj2 (Z.leb_le 0 (Z.of_nat i))) by lia. cbn [andb].
  destruct (decide (i < n)) as [H|H].
  - rewrite (proj2 (Z.ltb_lt (Z.of_nat i) (Z.of_nat n))) by lia. by rewrite Nat2Z.id.
  - by rewrite (proj2 (Z.ltb_ge (Z.of_nat i) (Z.of_nat n))) by lia.
Qed.
Lemma position_neg n i : i < n → position n (Z.of_nat i - Z.of_nat n) = Ok i.
Proof.
  intros H. unfold position. rewrite (proj2 (Z.ltb_lt (Z.of_nat i - Z.of_nat n) 0)) by lia.
  replace (Z.of_nat i - Z.of_nat n + Z.of_nat n)%Z with (Z.of_nat i) by lia.
  rewrite (proj2 (Z.leb_le 0 (Z.of_nat i))) by lia. rewrite (proj2 (Z.ltb_lt (Z.of_nat i) (Z.of_nat n))) by lia.
  by rewrite Nat2Z.id.
Qed.
Lemma position_err n z : position n z = Err IndexError ↔ (z < - Z.of_nat n ∨ Z.of_nat n <= z)%Z.
Proof.
  unfold position. destruct (z <? 0)%Z eqn:E1; [apply Z.ltb_lt in E1|apply Z.ltb_ge in E1];
    match goal with |- context [if ?b then _ else _] => destruct b eqn:E2 end;
    rewrite ?andb_true_iff, ?andb_false_iff, ?Z.leb_le, ?Z.leb_gt, ?Z.ltb_lt, ?Z.ltb_ge in E2; split; try done; lia.
Qed.
Lemma position_ok n z k : position n z = Ok k → k < n.
Proof.
  unfold position. destruct ((0 <=? _) && (_ <? _))%Z eqn:E; [|done]. intros [= <-].
  rewrite andb_true_iff, Z.leb_le, Z.ltb_lt in E. lia.
Qed.
Lemma position_Err n z e : position n z = Err e → e = IndexError.
Proof. unfold position. destruct (_ && _); congruence. Qed.

(** ** C144 *)
(** [len], positions and iteration of a context. *)
Theorem C144_context c : good c →
  cxt_len c = length (objs c) ∧ (cxt_bool c = false ↔ objs c = []) ∧
  (∀ i j g m, objs c !! i = Some g → atts c !! j = Some m → ∃ b,
     cxt_cell c (Z.of_nat i) (Z.of_nat j) = Ok b ∧
     cxt_cell c (Z.of_nat i - Z.of_nat (cxt_len c)) (Z.of_nat j) = Ok b ∧
     cxt_cell c (Z.of_nat i) (Z.of_nat j - Z.of_nat (length (atts c))) = Ok b ∧
     (b = true ↔ incident c g m)) ∧
  (∀ z, cxt_row c z = Err IndexError ↔ (z < - Z.of_nat (length (objs c)) ∨ Z.of_nat (length (objs c)) <= z)%Z) ∧
  (∀ z w, is_ok (cxt_row c z) = true →
     cxt_cell c z w = Err IndexError ↔ (w < - Z.of_nat (length (atts c)) ∨ Z.of_nat (length (atts c)) <= w)%Z).
Proof.
  intros [[Hr Hc _ _ _ _ _] [Ho Ha] _].
  assert (∀ k, k < length (np c) → ∃ r, np c !! k = Some r ∧ length r = length (atts c)) as Hrow.
  { intros k Hk. apply lookup_lt_is_Some in Hk as [r Er]. exists r. split; [done|]. exact (Hc k r Er). }
  assert (∀ z, cxt_row c z = Err IndexError ↔ (z < - Z.of_nat (length (objs c)) ∨ Z.of_nat (length (objs c)) <= z)%Z) as Hz.
  { intros z. rewrite <- Hr, <- position_err. unfold cxt_row. destruct (position (length (np c)) z) as [k|e] eqn:E; cbn [mbind res_bind].
    - destruct (Hrow k (position_ok _ _ _ E)) as (r & -> & _). done.
    - by rewrite (position_Err _ _ _ E). }
  split; [done|]. split.
  { unfold cxt_bool, cxt_len. rewrite negb_false_iff, Nat.eqb_eq, Hr. by rewrite length_zero_iff_nil. }
  split; [|split; [done|]].
  - intros i j g m Hi Hj. pose proof (lookup_lt_Some _ _ _ Hi) as Li. pose proof (lookup_lt_Some _ _ _ Hj) as Lj.
    destruct (Hrow i) as (r & Er & Lr); [lia|]. destruct (lookup_lt_is_Some_2 r j) as [b Eb]; [lia|].
    assert (cxt_row c (Z.of_nat i) = Ok r) as E1.
    { unfold cxt_row. rewrite position_nat, decide_True by lia. cbn [mbind res_bind]. by rewrite Er. }
    assert (cxt_row c (Z.of_nat i - Z.of_nat (cxt_len c)) = Ok r) as E2.
    { unfold cxt_row, cxt_len. rewrite position_neg by lia. cbn [mbind res_bind]. by rewrite Er. }
    exists b. unfold cxt_cell. rewrite E1, E2. cbn [mbind res_bind]. rewrite <- Lr, position_nat, decide_True, position_neg by lia.
    cbn [mbind res_bind]. rewrite Eb. split; [done|]. split; [done|]. split; [done|]. split.
    + intros ->. by exists i, j, r.
    + intros (i' & j' & r' & Hi' & Hj' & Er' & Eb').
      assert (i' = i) as -> by exact (NoDup_lookup _ _ _ _ Ho Hi' Hi). assert (j' = j) as -> by exact (NoDup_lookup _ _ _ _ Ha Hj' Hj).
      congruence.
  - intros z w. unfold cxt_cell. destruct (cxt_row c z) as [r|] eqn:E; [|done]. intros _. cbn [mbind res_bind].
    assert (length r = length (atts c)) as <-.
    { unfold cxt_row in E. destruct (position (length (np c)) z) as [k|] eqn:Ek; [|done]. cbn [mbind res_bind] in E.
      destruct (np c !! k) as [r'|] eqn:Er; [|done]. injection E as <-. exact (Hc k r' Er). }
    rewrite <- position_err. destruct (position (length r) w) as [k|e] eqn:Ek; cbn [mbind res_bind].
    + destruct (lookup_lt_is_Some_2 r k (position_ok _ _ _ Ek)) as [b ->]. done.
    + by rewrite (position_Err _ _ _ Ek).
Qed.
Print Assumptions C144_context.
(** Iterating over a context ends and gives one row for each object; a context made of these rows and
    the names has the same names and table. *)
Theorem C144_rows c : good c → ∀ fuel, length (objs c) < fuel → ∃ rows,
  seq_list (cxt_row c) fuel 0 = Some (Ok rows) ∧
  (∀ i r, rows !! i = Some r ↔ cxt_row c (Z.of_nat i) = Ok r) ∧
  ∃ d, mk_context rows None (objs c) (atts c) = Ok d ∧ objs d = objs c ∧ atts d = atts c ∧
    ∀ g m, incident d g m ↔ incident c g m.
Proof.
  intros [[Hr Hc _ _ _ _ _] [Ho Ha] _] fuel Hf. exists (np c).
  assert (∀ i, cxt_row c (Z.of_nat i) = get_or IndexError (np c !! i)) as Hit.
  { intros i. unfold cxt_row. rewrite position_nat. destruct (decide (i < length (np c))) as [H|H]; [done|].
    rewrite (proj2 (lookup_ge_None (np c) i)) by lia. done. }
  split; [rewrite (seq_list_lookup _ (np c) Hit) by lia; by rewrite drop_0|]. split.
  { intros i r. rewrite Hit. destruct (np c !! i); cbn; split; congruence. }
  destruct (C01_constructor (np c) (objs c) (atts c)) as [H _].
  destruct H as (d & Hd & Eo & Ea & Hi); [done|done|done|intros r [i Er]%elem_of_list_lookup; exact (Hc i r Er)|].
  exists d. split; [done|]. split; [done|]. split; [done|]. intros g m. split.
  - intros (i & j & r & H1 & H2 & H3 & H4). rewrite Eo in H1. rewrite Ea in H2.
    assert (incident d g m) as H by (exists i, j, r; by rewrite Eo, Ea). apply (Hi i j g m H1 H2) in H as (r' & H5 & H6).
    by exists i, j, r'.
  - intros (i & j & r & H1 & H2 & H3 & H4). apply (Hi i j g m H1 H2). eauto.
Qed.
Print Assumptions C144_rows.
(** Iterating over a lattice ends and gives each concept of the context once; a lattice is never false. *)
Theorem C144_lattice c l : good c → comparable (objs c) = true → comparable (atts c) = true → mk_lattice c = Ok l →
  concepts_len (lconcepts l) ≠ 0 ∧
  ∀ fuel, concepts_len (lconcepts l) < fuel → ∃ cs, seq_list (concepts_item (lconcepts l)) fuel 0 = Some (Ok cs) ∧
    NoDup cs ∧ ∀ A B, (A, B) ∈ cs ↔ is_concept (abs c) A B.
Proof.
  intros Hg Ho Ha Hl. destruct (lattice_spec c Hg Ho Ha l Hl) as (_ & Hnd & Hcs & _). split.
  - unfold concepts_len. rewrite length_zero_iff_nil. intros E.
    assert (∃ A B, is_concept (abs c) A B) as (A & B & H).
    { eexists _, _. apply (concept_of_objects (abs c) ∅). set_solver. }
    apply Hcs in H. rewrite E in H. by apply elem_of_nil in H.
  - intros fuel Hf. unfold concepts_len in Hf. exists (lconcepts l). split; [|done].
    rewrite (seq_list_lookup _ (lconcepts l)); [by rewrite drop_0| |lia|lia].
    intros i. unfold concepts_item. rewrite (proj2 (Z.ltb_ge (Z.of_nat i) 0)) by lia.
    rewrite (proj2 (Z.ltb_ge (Z.of_nat i) 0)) by lia. by rewrite Nat2Z.id.
Qed.
Print Assumptions C144_lattice.
(** The same for any list of concepts, as in a system, which may have repeated ones: [index] gives the first place. *)
Theorem C144_system (cs : list fconcept) :
  (∀ x, concepts_contains cs x = true ↔ x ∈ cs) ∧
  (∀ x i, concepts_index cs x = Ok i ↔ cs !! i = Some x ∧ ∀ j, j < i → cs !! j ≠ Some x) ∧
  (∀ x, concepts_index cs x = Err ValueError ↔ x ∉ cs) ∧
  (∀ i, i < length cs → ∃ x, cs !! i = Some x ∧ concepts_item cs (Z.of_nat i) = Ok x ∧
     concepts_item cs (Z.of_nat i - Z.of_nat (concepts_len cs)) = Ok x) ∧
  (∀ z, concepts_item cs z = Err IndexError ↔ (z < - Z.of_nat (concepts_len cs) ∨ Z.of_nat (concepts_len cs) <= z)%Z) ∧
  ∀ fuel, length cs < fuel → seq_list (concepts_item cs) fuel 0 = Some (Ok cs).
Proof.
  assert (∀ i, concepts_item cs (Z.of_nat i) = get_or IndexError (cs !! i)) as Hit.
  { intros i. unfold concepts_item. rewrite (proj2 (Z.ltb_ge (Z.of_nat i) 0)) by lia.
    rewrite (proj2 (Z.ltb_ge (Z.of_nat i) 0)) by lia. by rewrite Nat2Z.id. }
  assert (∀ x, x ∈ cs → is_ok (concepts_index cs x) = true) as Hin.
  { intros x. unfold concepts_index. clear. induction cs as [|y cs IH]; intros H; [by apply elem_of_nil in H|]. cbn [py_index].
    destruct (decide (y = x)) as [|Hne]; [done|]. apply elem_of_cons in H as [->|H]; [done|]. specialize (IH H).
    destruct (py_index x cs); done. }
  assert (∀ x, x ∉ cs → concepts_index cs x = Err ValueError) as Hno.
  { intros x. unfold concepts_index. clear. induction cs as [|y cs IH]; [done|]. intros H. cbn [py_index].
    rewrite decide_False by (intros ->; apply H; by left). rewrite IH; [done|]. intros H'. apply H. by right. }
  split; [|split; [|split; [|split; [|split]]]].
  - intros x. unfold concepts_contains. rewrite existsb_exists. split.
    + intros (y & Hy & E). apply bool_decide_eq_true in E as ->. by apply elem_of_list_In.
    + intros Hx. exists x. split; [by apply elem_of_list_In|by apply bool_decide_eq_true].
  - intros x. unfold concepts_index. clear. induction cs as [|y cs IH]; intros i.
    { split; [done|]. intros [H _]. done. }
    cbn [py_index]. destruct (decide (y = x)) as [->|Hne].
    + split; [intros [= <-]; split; [done|lia]|]. intros [_ H]. destruct i as [|i]; [done|]. destruct (H 0); [lia|done].
    + destruct i as [|i].
      * split; [destruct (py_index x cs); done|]. intros [[= H] _]. done.
      * trans (py_index x cs = Ok i); [destruct (py_index x cs); cbn; split; congruence|]. rewrite IH. split.
        -- intros [H1 H2]. split; [done|]. intros [|j] Hj; [intros [= H]; done|]. apply H2. lia.
        -- intros [H1 H2]. split; [done|]. intros j Hj. apply (H2 (S j)). lia.
  - intros x. split; [|apply Hno]. intros E H%Hin. by rewrite E in H.
  - intros i Hi. destruct (lookup_lt_is_Some_2 cs i Hi) as [x E]. exists x. split; [done|]. rewrite Hit, E. split; [done|].
    unfold concepts_len, concepts_item. rewrite (proj2 (Z.ltb_lt (Z.of_nat i - Z.of_nat (length cs)) 0)) by lia.
    replace (Z.of_nat i - Z.of_nat (length cs) + Z.of_nat (length cs))%Z with (Z.of_nat i) by lia.
    rewrite (proj2 (Z.ltb_ge (Z.of_nat i) 0)) by lia. by rewrite Nat2Z.id, E.
  - intros z. unfold concepts_len, concepts_item.
    assert (∀ n : nat, get_or IndexError (cs !! n) = Err IndexError ↔ length cs ≤ n) as Hge.
    { intros n. rewrite <- lookup_ge_None. destruct (cs !! n); cbn; split; done. }
    destruct (z <? 0)%Z eqn:E1; [apply Z.ltb_lt in E1|apply Z.ltb_ge in E1].
    + destruct (z + Z.of_nat (length cs) <? 0)%Z eqn:E2; [apply Z.ltb_lt in E2; split; [lia|done]|apply Z.ltb_ge in E2].
      rewrite Hge. lia.
    + rewrite (proj2 (Z.ltb_ge z 0)) by lia. rewrite Hge. lia.
  - intros fuel Hf. rewrite (seq_list_lookup _ cs Hit) by lia. by rewrite drop_0.
Qed.
Print Assumptions C144_system.
Example C144_case : cxt_len ex = 4 ∧ cxt_bool ex = true ∧ cxt_bool empty_cxt = false ∧
  cxt_cell ex 0 1 = Ok true ∧ cxt_cell ex (-4) (-2) = Ok true ∧ cxt_cell ex 2 1 = Ok false ∧
  cxt_row ex 4 = Err IndexError ∧ cxt_row ex (-5) = Err IndexError ∧ cxt_cell ex 0 3 = Err IndexError ∧
  seq_list (cxt_row ex) 5 0 = Some (Ok ex_table) ∧ seq_list (cxt_row ex) 4 0 = None ∧
  option_map (fun r => match r with Ok cs => length cs | _ => 0 end) (seq_list (concepts_item (lconcepts ex_lat)) 6 0) = Some 5.
Proof. repeat split; vm_compute; reflexivity. Qed.
Example C144_case_system : let x : fconcept := ({[o1]}, {[sa]}) in let y : fconcept := (∅, {[sb]}) in
  concepts_index [y; x; y; x] x = Ok 1 ∧ concepts_contains [y; y] x = false ∧ concepts_index [y; y] x = Err ValueError ∧
  concepts_item [y; x; x] (-3) = Ok y.
Proof. intros x y. repeat split; dec. Qed.
