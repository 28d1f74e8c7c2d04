(** * Printing concepts, and lattices as containers: the final statements (C143) *)
From Coq Require Import Ascii.
From stdpp Require Import pretty.
From Verif Require Import Py PyFacts Spec SpecFacts ContextModel ContextSpec ContextOps ContextFacts ContextInit ContextFinal
  StrModel StrFacts LatticeSpec LatticeModel NorrisFacts LatticeFacts ShowModel ShowFacts Properties_Context Properties_Lattice.

Definition newline : string := String (ascii_of_nat 10) EmptyString.
Lemma concept_str_inv x s : concept_str x = Ok s → ∃ se si,
  s = ("(" ++ se ++ ", " ++ si ++ ")")%string ∧
  ((x.2 = ∅ ∧ se = "G"%string) ∨ x.2 ≠ ∅ ∧ ∃ l, l ≡ₚ elements x.1 ∧ list_repr l = Ok se) ∧
  ((x.1 = ∅ ∧ si = "M"%string) ∨ x.1 ≠ ∅ ∧ ∃ l, l ≡ₚ elements x.2 ∧ list_repr l = Ok si).
Proof.
  unfold concept_str. destruct x as [A B]. cbn [fst snd].
  destruct (decide (B = ∅)) as [HB|HB], (decide (A = ∅)) as [HA|HA]; cbn [mbind res_bind].
  - intros [= <-]. exists "G"%string, "M"%string. auto.
  - destruct (py_sorted (elements B)) as [l|] eqn:E; [|done]. cbn [mbind res_bind].
    destruct (list_repr l) as [si|] eqn:E2; [|done]. cbn [mbind res_bind]. intros [= <-]. exists "G"%string, si.
    apply py_sorted_Ok in E. split; [done|]. split; [by left|]. right. eauto.
  - destruct (py_sorted (elements A)) as [l|] eqn:E; [|done]. cbn [mbind res_bind].
    destruct (list_repr l) as [se|] eqn:E2; [|done]. cbn [mbind res_bind]. intros [= <-]. exists se, "M"%string.
    apply py_sorted_Ok in E. split; [done|]. split; [|by left]. right. eauto.
  - destruct (py_sorted (elements A)) as [l|] eqn:E; [|done]. cbn [mbind res_bind].
    destruct (py_sorted (elements B)) as [k|] eqn:E'; [|done]. cbn [mbind res_bind].
    destruct (list_repr l) as [se|] eqn:E2; [|done]. cbn [mbind res_bind].
    destruct (list_repr k) as [si|] eqn:E3; [|done]. cbn [mbind res_bind]. intros [= <-]. exists se, si.
    apply py_sorted_Ok in E, E'. split; [done|]. split; right; eauto.
Qed.
Lemma list_repr_bracket l s : list_repr l = Ok s → ∃ t, s = ("[" ++ t)%string.
Proof. unfold list_repr. destruct (mapM name_repr l); [|done]. cbn. intros [= <-]. eauto. Qed.

(** ** C143 *)
(** Concepts of one context that print alike are the same. *)
Theorem C143_distinct c (x y : fconcept) s : is_concept (abs c) x.1 x.2 → is_concept (abs c) y.1 y.2 →
  concept_str x = Ok s → concept_str y = Ok s → x = y.
Proof.
  intros (_ & _ & Hx1 & Hx2) (_ & _ & Hy1 & Hy2) Ex Ey.
  assert (x.1 = y.1 ∨ x.2 = y.2) as H.
  { destruct (concept_str_inv x s Ex) as (se & si & E & [[Hx ->]|(Hx & l & Hl & El)] & _);
      destruct (concept_str_inv y s Ey) as (se' & si' & E' & [[Hy ->]|(Hy & k & Hk & Ek)] & _); rewrite E in E'.
    - right. congruence.
    - destruct (list_repr_bracket k _ Ek) as [t ->]. discriminate E'.
    - destruct (list_repr_bracket l _ El) as [t ->]. discriminate E'.
    - injection E' as E'. destruct (list_repr_inj l k se se' _ _ El Ek E') as [-> _].
      left. apply set_eq. intros g. rewrite <- !elem_of_elements, <- Hl, <- Hk. done. }
  destruct x as [A B], y as [A' B']. cbn [fst snd] in *. destruct H; subst; congruence.
Qed.
Print Assumptions C143_distinct.
(** Printing, and so hashing, fails with TypeError exactly for the concepts that the model of [hash] says. *)
Theorem C143_hash x : concept_str x = Err TypeError ↔ chash x = false.
Proof.
  assert (∀ l, list_repr l ≠ Err TypeError) as Hr.
  { intros l. unfold list_repr. assert (mapM name_repr l ≠ Err TypeError) as H; [|destruct (mapM name_repr l); [done|]; cbn [mbind res_bind]; congruence].
    induction l as [|n l IH]; [done|]. cbn [mapM]. destruct n as [s|z]; cbn [name_repr].
    - destruct (plain s); [|done]. cbn [mbind res_bind]. by destruct (mapM name_repr l).
    - cbn [mbind res_bind]. by destruct (mapM name_repr l). }
  unfold concept_str, chash, py_sorted. destruct x as [A B]. cbn [fst snd].
  destruct (decide (B = ∅)) as [HB|HB], (decide (A = ∅)) as [HA|HA];
    rewrite ?(bool_decide_true _ HB), ?(bool_decide_false _ HB), ?(bool_decide_true _ HA), ?(bool_decide_false _ HA);
    cbn [mbind res_bind orb andb].
  - done.
  - destruct (comparable (elements B)); cbn [mbind res_bind]; [|done].
    destruct (list_repr _) eqn:E; cbn [mbind res_bind]; [done|]. split; [|done]. intros [= ->]. by apply Hr in E.
  - destruct (comparable (elements A)); cbn [mbind res_bind andb]; [|done].
    destruct (list_repr _) eqn:E; cbn [mbind res_bind]; [done|]. split; [|done]. intros [= ->]. by apply Hr in E.
  - destruct (comparable (elements A)); cbn [mbind res_bind andb]; [|done].
    destruct (comparable (elements B)); cbn [mbind res_bind andb]; [|done].
    destruct (list_repr (isort name_leb (elements A))) eqn:E; cbn [mbind res_bind].
    + destruct (list_repr (isort name_leb (elements B))) eqn:E'; cbn [mbind res_bind]; [done|]. split; [|done].
      intros [= ->]. by apply Hr in E'.
    + split; [|done]. intros [= ->]. by apply Hr in E.
Qed.
Print Assumptions C143_hash.
(** The text itself: a pair of sides in parentheses; a side is G or M when the other is empty, otherwise the names in
    increasing order, strings in quotes, separated by a comma and a blank, in brackets. *)
Definition shown (n : name) (t : string) : Prop :=
  match n with NStr s => t = ("'" ++ s ++ "'")%string | NInt z => t = pretty z end.
Definition side (X Y : gset name) (all t : string) : Prop :=
  (Y = ∅ ∧ t = all) ∨
  (Y ≠ ∅ ∧ ∃ l ts, StronglySorted name_le l ∧ NoDup l ∧ (∀ n, n ∈ l ↔ n ∈ X) ∧ Forall2 shown l ts ∧
     t = ("[" ++ String.concat ", " ts ++ "]")%string).
Lemma join_concat sep ss : join sep ss = String.concat sep ss.
Proof.
  induction ss as [|s ss IH]; [done|]. destruct ss as [|t ss]; [done|].
  change (String.concat sep (s :: t :: ss)) with (s ++ sep ++ String.concat sep (t :: ss))%string. rewrite <- IH. by rewrite join_cons_ne.
Qed.
Lemma side_of (X Y : gset name) e t all : (if decide (Y = ∅) then Ok None else l ← py_sorted (elements X); Ok (Some l)) = Ok e →
  match e with None => Ok all | Some l => list_repr l end = Ok t → side X Y all t.
Proof.
  destruct (decide (Y = ∅)) as [HY|HY]; [intros [= <-] [= <-]; by left|].
  destruct (py_sorted (elements X)) as [l|] eqn:E; [|done]. cbn [mbind res_bind]. intros [= <-] Et. right. split; [done|].
  apply py_sorted_spec in E as [Hp Hs]. unfold list_repr in Et. destruct (mapM name_repr l) as [ts|] eqn:Em; [|done].
  cbn [mbind res_bind] in Et. injection Et as <-. exists l, ts. split; [done|]. split; [rewrite Hp; apply NoDup_elements|].
  split; [intros n; by rewrite Hp, elem_of_elements|]. split; [|by rewrite join_concat]. clear Hp Hs. revert ts Em.
  induction l as [|n l IH]; intros ts; cbn [mapM]; [intros [= <-]; constructor|].
  destruct (name_repr n) as [u|] eqn:En; [|done]. cbn [mbind res_bind]. destruct (mapM name_repr l) as [us|]; [|done].
  cbn. intros [= <-]. constructor; [|by apply IH]. destruct n as [u'|z]; cbn in En |- *; [destruct (plain u'); [|done]|]; congruence.
Qed.
Theorem C143_format x s : concept_str x = Ok s → ∃ se si,
  s = ("(" ++ se ++ ", " ++ si ++ ")")%string ∧ side x.1 x.2 "G" se ∧ side x.2 x.1 "M" si.
Proof.
  unfold concept_str. intros E.
  destruct (if decide (x.2 = ∅) then _ else _) as [e|] eqn:E1; [|done]. cbn [mbind res_bind] in E.
  destruct (if decide (x.1 = ∅) then _ else _) as [i|] eqn:E2; [|done]. cbn [mbind res_bind] in E.
  destruct (match e with None => _ | _ => _ end) as [se|] eqn:E3; [|done]. cbn [mbind res_bind] in E.
  destruct (match i with None => _ | _ => _ end) as [si|] eqn:E4; [|done]. cbn [mbind res_bind] in E.
  injection E as <-. exists se, si. split; [done|].
  split; [exact (side_of _ _ _ _ _ E1 E3)|exact (side_of _ _ _ _ _ E2 E4)].
Qed.
Print Assumptions C143_format.
Lemma but_last_app s a : but_last (s ++ String a EmptyString) = s.
Proof.
  induction s as [|b s IH]; [done|]. change (String b s ++ String a "")%string with (String b (s ++ String a "")).
  cbn [but_last]. rewrite IH. destruct s; done.
Qed.
Lemma concepts_lines_ok : ∀ cs ss acc, mapM concept_str cs = Ok ss →
  concepts_lines acc cs = Ok (but_last (acc ++ String.concat "" (map (λ s, s ++ newline)%string ss))).
Proof.
  induction cs as [|x cs IH]; intros ss acc; cbn [mapM].
  - intros [= <-]. change (concepts_lines acc []) with (Ok (but_last acc)).
    change (String.concat "" (map (λ s, s ++ newline)%string [])) with EmptyString. by rewrite app_nil_r_s.
  - destruct (concept_str x) as [s|] eqn:E; [|done]. cbn [mbind res_bind]. destruct (mapM concept_str cs) as [ss'|]; [|done].
    cbn. intros [= <-]. rewrite E. cbn [mbind res_bind]. rewrite (IH ss' _ eq_refl). f_equal. f_equal.
    cbn [map]. destruct ss' as [|t ss']; cbn [map String.concat].
    + by rewrite !app_assoc_s.
    + rewrite !app_assoc_s. done.
Qed.
(** A lattice or system prints the concepts in their order, one to a line, without a final line end. *)
Theorem C143_lines cs ss : mapM concept_str cs = Ok ss → concepts_str cs = Ok (String.concat newline ss).
Proof.
  intros H. unfold concepts_str. rewrite (concepts_lines_ok cs ss EmptyString H). f_equal.
  change (but_last (String.concat "" (map (λ s, s ++ newline)%string ss)) = String.concat newline ss).
  clear H. assert (ss ≠ [] → String.concat "" (map (λ s, s ++ newline)%string ss) = (String.concat newline ss ++ newline)%string) as H.
  { induction ss as [|s ss IH]; [done|]. intros _. destruct ss as [|t ss]; [done|].
    change (map (λ s, s ++ newline)%string (s :: t :: ss)) with ((s ++ newline)%string :: map (λ s, s ++ newline)%string (t :: ss)).
    change (String.concat "" ((s ++ newline)%string :: map (λ s, s ++ newline)%string (t :: ss)))
      with ((s ++ newline) ++ "" ++ String.concat "" (map (λ s, s ++ newline)%string (t :: ss)))%string.
    rewrite IH by done.
    change (String.concat newline (s :: t :: ss)) with (s ++ newline ++ String.concat newline (t :: ss))%string.
    rewrite !app_assoc_s. done. }
  destruct ss as [|s ss]; [done|]. rewrite H by done. apply but_last_app.
Qed.
Print Assumptions C143_lines.
(** The first concept that cannot be printed makes the whole fail. *)
Theorem C143_lines_fail cs e : mapM concept_str cs = Err e → concepts_str cs = Err e.
Proof.
  unfold concepts_str. generalize EmptyString. induction cs as [|x cs IH]; intros acc; cbn [mapM]; [done|]. cbn [concepts_lines].
  destruct (concept_str x) as [s|]; cbn [mbind res_bind]; [|by intros [= ->]]. destruct (mapM concept_str cs) as [ss'|]; [done|].
  cbn [mbind res_bind]. intros [= ->]. by apply IH.
Qed.
Print Assumptions C143_lines_fail.
(** A lattice whose names can be compared and have plain characters prints; the lines are different,
    one for each concept. *)
Theorem C143_lattice c l : good c → comparable (objs c) = true → comparable (atts c) = true → mk_lattice c = Ok l →
  (∀ s, NStr s ∈ objs c ++ atts c → plain s = true) →
  ∃ ss, concepts_str (lconcepts l) = Ok (String.concat newline ss) ∧ mapM concept_str (lconcepts l) = Ok ss ∧
    length ss = concepts_len (lconcepts l) ∧ NoDup ss.
Proof.
  intros Hg Ho Ha Hl Hp. destruct (lattice_spec c Hg Ho Ha l Hl) as (_ & Hnd & Hcs & _).
  assert (∀ x : fconcept, x ∈ lconcepts l → ∃ s, concept_str x = Ok s) as Hs.
  { intros [A B] Hx%Hcs. pose proof (concept_hash c Ho Ha A B Hx) as Hh.
    assert (∀ k, (∀ n, n ∈ k → n ∈ objs c ++ atts c) → ∃ s, list_repr k = Ok s) as Hr.
    { intros k Hk. unfold list_repr. assert (∃ ss, mapM name_repr k = Ok ss) as [ss ->]; [|eauto].
      induction k as [|n k IH]; [by exists []|]. destruct IH as [ss Ess]; [intros; apply Hk; by right|].
      assert (∃ s, name_repr n = Ok s) as [s Es].
      { destruct n as [s|z]; cbn; [|eauto]. rewrite Hp; [eauto|]. apply Hk. by left. }
      exists (s :: ss). cbn [mapM]. rewrite Es. cbn [mbind res_bind]. rewrite Ess. done. }
    assert (∀ n, n ∈ A → n ∈ objs c ++ atts c) as HA.
    { intros n Hn. apply elem_of_app. left. apply (elem_of_list_to_set (C:=gset name)). by apply Hx. }
    assert (∀ n, n ∈ B → n ∈ objs c ++ atts c) as HB.
    { intros n Hn. apply elem_of_app. right. apply (elem_of_list_to_set (C:=gset name)). by apply Hx. }
    destruct (concept_str (A, B)) as [s|e] eqn:E; [by exists s|]. exfalso.
    assert (e ≠ TypeError) as He by (intros ->; apply C143_hash in E; congruence). revert E. unfold concept_str. cbn [fst snd].
    assert (∀ X : gset name, (∀ n, n ∈ X → n ∈ objs c ++ atts c) → py_sorted (elements X) = Err TypeError ∨
      ∃ k s, py_sorted (elements X) = Ok k ∧ list_repr k = Ok s) as Hq.
    { intros X HX. destruct (py_sorted (elements X)) as [k|e'] eqn:E.
      - right. destruct (Hr k) as [s Es]; [|eauto]. intros n Hn. apply HX, elem_of_elements.
        by rewrite <- (py_sorted_Ok _ _ E).
      - left. unfold py_sorted in E. destruct (comparable (elements X)); [discriminate E|]. congruence. }
    destruct (Hq A HA) as [E1|(k & s & E1 & E2)], (Hq B HB) as [E3|(k' & s' & E3 & E4)]; rewrite E1, E3;
      destruct (decide (B = ∅)), (decide (A = ∅)); cbn [mbind res_bind]; rewrite ?E2, ?E4; cbn [mbind res_bind]; congruence. }
  assert (∃ ss, mapM concept_str (lconcepts l) = Ok ss ∧ Forall2 (λ x s, concept_str x = Ok s) (lconcepts l) ss) as (ss & E & HF).
  { clear Hnd Hcs Hl. induction (lconcepts l) as [|x cs IH]; [exists []; by split|].
    destruct (Hs x) as [s Es]; [by left|]. destruct IH as (ss & E & HF); [intros; apply Hs; by right|].
    exists (s :: ss). split; [|by constructor]. cbn [mapM]. rewrite Es. cbn [mbind res_bind]. rewrite E. done. }
  exists ss. split; [by apply C143_lines|]. split; [done|]. split; [symmetry; by eapply Forall2_length|].
  apply NoDup_alt. intros i j s Hi Hj.
  destruct (Forall2_lookup_r _ _ _ _ _ HF Hi) as ([A B] & Hx & Ex). destruct (Forall2_lookup_r _ _ _ _ _ HF Hj) as ([A' B'] & Hy & Ey).
  assert ((A, B) = (A', B')) as Exy.
  { apply (C143_distinct c (A, B) (A', B') s); [apply Hcs; by eapply elem_of_list_lookup_2..|done|done]. }
  rewrite <- Exy in Hy. exact (NoDup_lookup _ _ _ _ Hnd Hx Hy).
Qed.
Print Assumptions C143_lattice.
(** The concepts of different contexts may print alike. *)
Theorem C143_other_context_refuted : ∃ c d x y s, good c ∧ good d ∧ is_concept (abs c) x.1 x.2 ∧ is_concept (abs d) y.1 y.2 ∧
  concept_str x = Ok s ∧ concept_str y = Ok s ∧ x ≠ y.
Proof.
  destruct (mk_context_ok [[false]] None [o1] [sa]) as [c Hc]; [done|by intros r ->%elem_of_list_singleton|].
  destruct (mk_context_ok [[false]] None [o2] [sa]) as [d Hd]; [done|by intros r ->%elem_of_list_singleton|].
  exists c, d, ({[o1]}, ∅), ({[o2]}, ∅), "(G, [])"%string.
  assert (good c) as Hgc by (eapply (mk_context_good [[false]] None); [exact Hc|dec|dec|done]).
  assert (good d) as Hgd by (eapply (mk_context_good [[false]] None); [exact Hd|dec|dec|done]).
  split; [done|]. split; [done|].
  assert (c = get_ok empty_cxt (mk_context [[false]] None [o1] [sa])) as -> by by rewrite Hc.
  assert (d = get_ok empty_cxt (mk_context [[false]] None [o2] [sa])) as -> by by rewrite Hd.
  split; [dec|]. split; [dec|]. split; [dec|]. split; [dec|]. dec.
Qed.
Print Assumptions C143_other_context_refuted.

(** The lattice as a container: [in] finds exactly the concepts, [index] and item access are inverse to
    each other, negative positions count from the end, other positions raise IndexError. *)
Theorem C143_container c l : good c → comparable (objs c) = true → comparable (atts c) = true → mk_lattice c = Ok l →
  let cs := lconcepts l in
  (∀ x, concepts_contains cs x = true ↔ is_concept (abs c) x.1 x.2) ∧
  (∀ x, (∃ i, concepts_index cs x = Ok i) ↔ is_concept (abs c) x.1 x.2) ∧
  (∀ x, ¬ is_concept (abs c) x.1 x.2 → concepts_index cs x = Err ValueError) ∧
  (∀ x i, concepts_index cs x = Ok i ↔ concepts_item cs (Z.of_nat i) = Ok x) ∧
  (∀ i, i < concepts_len cs → concepts_item cs (Z.of_nat i - Z.of_nat (concepts_len cs)) = concepts_item cs (Z.of_nat i)) ∧
  (∀ z, (z < - Z.of_nat (concepts_len cs) ∨ Z.of_nat (concepts_len cs) <= z)%Z ↔ concepts_item cs z = Err IndexError).
Proof.
  intros Hg Ho Ha Hl cs. destruct (lattice_spec c Hg Ho Ha l Hl) as (_ & Hnd & Hcs & _). fold cs in Hnd, Hcs.
  assert (∀ x : fconcept, x ∈ cs ↔ is_concept (abs c) x.1 x.2) as Hin by (intros [A B]; apply Hcs).
  assert (∀ x i, concepts_index cs x = Ok i ↔ cs !! i = Some x) as Hix.
  { intros x. unfold concepts_index. clear -Hnd. induction cs as [|y cs IH]; intros i; [done|].
    apply NoDup_cons in Hnd as [Hy Hnd]. specialize (IH Hnd). cbn [py_index]. destruct (decide (y = x)) as [->|Hne].
    - destruct i as [|i]; [done|]. split; [done|]. intros H. exfalso. apply Hy. by eapply elem_of_list_lookup_2.
    - destruct i as [|i].
      + destruct (py_index x cs); cbn [mbind res_bind]; split; try done; by intros [= H].
      + change ((y :: cs) !! S i) with (cs !! i). rewrite <- IH. destruct (py_index x cs); cbn [mbind res_bind]; [|done].
        split; intros [= H]; congruence. }
  assert (∀ x, x ∉ cs → concepts_index cs x = Err ValueError) as Hno.
  { intros x. unfold concepts_index. clear. induction cs as [|y cs IH]; [done|]. intros H. cbn [py_index].
    rewrite decide_False by (intros ->; apply H; by left). rewrite IH; [done|]. intros H'. apply H. by right. }
  assert (∀ i, concepts_item cs (Z.of_nat i) = get_or IndexError (cs !! i)) as Hit.
  { intros i. unfold concepts_item. rewrite (proj2 (Z.ltb_ge (Z.of_nat i) 0)) by lia.
    rewrite (proj2 (Z.ltb_ge (Z.of_nat i) 0)) by lia. by rewrite Nat2Z.id. }
  split; [|split; [|split; [|split; [|split]]]].
  - intros x. rewrite <- Hin. unfold concepts_contains. rewrite existsb_exists. split.
    + intros (y & Hy & E). apply bool_decide_eq_true in E as ->. by apply elem_of_list_In.
    + intros Hx. exists x. split; [by apply elem_of_list_In|by apply bool_decide_eq_true].
  - intros x. rewrite <- Hin, elem_of_list_lookup. split; intros [i Hi]; exists i; by apply Hix.
  - intros x Hx. apply Hno. by rewrite Hin.
  - intros x i. rewrite Hix, Hit. destruct (cs !! i); cbn; split; try done; by intros [= ->].
  - intros i Hi. unfold concepts_len in *. rewrite Hit. unfold concepts_item.
    rewrite (proj2 (Z.ltb_lt (Z.of_nat i - Z.of_nat (length cs)) 0)) by lia.
    replace (Z.of_nat i - Z.of_nat (length cs) + Z.of_nat (length cs))%Z with (Z.of_nat i) by lia.
    rewrite (proj2 (Z.ltb_ge (Z.of_nat i) 0)) by lia. by rewrite Nat2Z.id.
  - intros z. unfold concepts_len, concepts_item.
    assert (∀ n : nat, get_or IndexError (cs !! n) = Err IndexError ↔ length cs ≤ n) as Hge.
    { intros n. rewrite <- lookup_ge_None. destruct (cs !! n); cbn; split; done. }
    destruct (z <? 0)%Z eqn:E1; [apply Z.ltb_lt in E1|apply Z.ltb_ge in E1].
    + destruct (z + Z.of_nat (length cs) <? 0)%Z eqn:E2; [apply Z.ltb_lt in E2; split; [done|lia]|apply Z.ltb_ge in E2].
      rewrite Hge. lia.
    + rewrite (proj2 (Z.ltb_ge z 0)) by lia. rewrite Hge. lia.
Qed.
Print Assumptions C143_container.
Example C143_case : is_ok (mk_lattice ex) = true ∧
  concept_str ({[o1]}, {[sa; sb]}) = Ok "([1], ['a', 'b'])"%string ∧ concept_str (∅, {[sa; sb; sc]}) = Ok "([], M)"%string ∧
  concept_str ({[o1; sa]}, {[sb]}) = Err TypeError ∧
  mapM concept_str (lconcepts ex_lat) = Ok ["([], M)"; "([1], ['a', 'b'])"; "([2], ['a', 'c'])"; "([1, 2, 3], ['a'])"; "(G, [])"]%string ∧
  concepts_index (lconcepts ex_lat) ({[o2]}, {[sa; sc]}) = Ok 2 ∧
  concepts_item (lconcepts ex_lat) (-3) = Ok ({[o2]}, {[sa; sc]}) ∧ concepts_item (lconcepts ex_lat) 5 = Err IndexError.
Proof. split; [by vm_compute|]. repeat split; dec. Qed.
Example C143_case_plain : ∀ s, NStr s ∈ objs ex ++ atts ex → plain s = true.
Proof.
  intros s H. assert (Forall (λ n, match n with NStr s => plain s = true | _ => True end) (objs ex ++ atts ex)) as HF by (repeat constructor).
  rewrite Forall_forall in HF. exact (HF _ H).
Qed.
