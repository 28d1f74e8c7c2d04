(** * Laws of the product of contexts *)
From Verif Require Import Py Spec ContextModel ContextSpec ContextOps PyFacts SpecFacts ContextFacts ContextInit
  ContextMut ContextEffects ContextMisc ContextReduce ContextEq ContextFinal MvFacts MulSpec.

(** A context is determined by its two name lists and its incidence relation. *)
Lemma table_of_incidence c d : good c → good d → objs c = objs d → atts c = atts d →
  (∀ g m, incident c g m ↔ incident d g m) → np c = np d.
Proof.
  intros Hc Hd Ho Ha H. apply table_eq; [apply Hc|apply Hd|by rewrite Ho|by rewrite Ha|].
  intros i j. destruct (objs c !! i) as [g|] eqn:Hg; [destruct (atts c !! j) as [m|] eqn:Hm|].
  - assert (objs d !! i = Some g) as Hg' by by rewrite <-Ho.
    assert (atts d !! j = Some m) as Hm' by by rewrite <-Ha.
    rewrite (cellb_incident c i j g m (good_distinct c Hc) (good_wf c Hc) Hg Hm).
    rewrite (cellb_incident d i j g m (good_distinct d Hd) (good_wf d Hd) Hg' Hm').
    f_equal. by apply bool_decide_ext.
  - apply lookup_ge_None in Hm.
    destruct (cellb c i j) eqn:E1; [apply cellb_lt in E1; [lia|apply Hc]|].
    destruct (cellb d i j) eqn:E2; [apply cellb_lt in E2; [rewrite <-Ha in E2; lia|apply Hd]|done].
  - apply lookup_ge_None in Hg.
    destruct (cellb c i j) eqn:E1; [apply cellb_lt in E1; [lia|apply Hc]|].
    destruct (cellb d i j) eqn:E2; [apply cellb_lt in E2; [rewrite <-Ho in E2; lia|apply Hd]|done].
Qed.

Lemma mul_assoc c d e :
  good c → good d → good e → objs c ≠ [] → objs d ≠ [] → objs e ≠ [] →
  atts c = objs d → atts d = objs e →
  ∃ cd de l r, context_mul c d = Ok cd ∧ context_mul d e = Ok de ∧
    context_mul cd e = Ok l ∧ context_mul c de = Ok r ∧
    objs l = objs r ∧ atts l = atts r ∧ np l = np r ∧
    objs l = objs c ∧ atts l = atts e ∧
    ∀ g m, incident l g m ↔ ∃ x y, incident c g x ∧ incident d x y ∧ incident e y m.
Proof.
  intros Hc Hd He Nc Nd Ne E1 E2.
  destruct (mul_spec c d) as (cd & Hcd & Gcd & Ocd & Acd & Icd); try done; try apply Hc; try apply Hd.
  destruct (mul_spec d e) as (de & Hde & Gde & Ode & Ade & Ide); try done; try apply Hd; try apply He.
  destruct (mul_spec cd e) as (l & Hl & Gl & Ol & Al & Il); try done; try apply Gcd; try apply He; [by rewrite Ocd|by rewrite Acd|].
  destruct (mul_spec c de) as (r & Hr & Gr & Or & Ar & Ir); try done; try apply Gde; try apply Hc; [by rewrite Ode|by rewrite Ode|].
  assert (∀ g m, incident l g m ↔ ∃ x y, incident c g x ∧ incident d x y ∧ incident e y m) as HL.
  { intros g m. rewrite Il. split.
    - intros (y & Hy & Hm). apply Icd in Hy as (x & ? & ?). by exists x, y.
    - intros (x & y & ? & ? & ?). exists y. split; [apply Icd; by exists x|done]. }
  assert (∀ g m, incident r g m ↔ ∃ x y, incident c g x ∧ incident d x y ∧ incident e y m) as HR.
  { intros g m. rewrite Ir. split.
    - intros (x & Hx & Hm). apply Ide in Hm as (y & ? & ?). by exists x, y.
    - intros (x & y & ? & ? & ?). exists x. split; [done|apply Ide; by exists y]. }
  exists cd, de, l, r. do 4 (split; [done|]).
  split; [congruence|]. split; [congruence|]. split.
  - apply table_of_incidence; [done|done|congruence|congruence|]. intros g m. by rewrite HL, HR.
  - split; [congruence|]. split; [congruence|done].
Qed.

Lemma mul_transpose c d :
  good c → good d → objs c ≠ [] → objs d ≠ [] → atts d ≠ [] → atts c = objs d →
  ∃ cd t tc td r, context_mul c d = Ok cd ∧ transpose cd = Ok t ∧
    transpose c = Ok tc ∧ transpose d = Ok td ∧ context_mul td tc = Ok r ∧
    objs t = objs r ∧ atts t = atts r ∧ np t = np r ∧
    objs t = atts d ∧ atts t = objs c.
Proof.
  intros Hc Hd Nc Nd Na E.
  destruct (mul_spec c d) as (cd & Hcd & Gcd & Ocd & Acd & Icd); try done; try apply Hc; try apply Hd.
  destruct (transpose_spec cd) as (t & Ht & Gt & Ot & At & _ & It); try apply Gcd.
  destruct (transpose_spec c) as (tc & Htc & Gtc & Otc & Atc & _ & Itc); try apply Hc.
  destruct (transpose_spec d) as (td & Htd & Gtd & Otd & Atd & _ & Itd); try apply Hd.
  destruct (mul_spec td tc) as (r & Hr & Gr & Or & Ar & Ir); try apply Gtc; try apply Gtd;
    [by rewrite Otd|by rewrite Otc, E|congruence|].
  exists cd, t, tc, td, r. do 5 (split; [done|]).
  split; [congruence|]. split; [congruence|]. split; [|split; congruence].
  apply table_of_incidence; [done|done|congruence|congruence|].
  intros m g. rewrite It, Icd, Ir. split.
  - intros (f & H1 & H2). exists f. split; [by apply Itd|by apply Itc].
  - intros (f & H1 & H2). exists f. split; [by apply Itc|by apply Itd].
Qed.

Lemma incident_att c g m : incident c g m → g ∈ objs c ∧ m ∈ atts c.
Proof. intros (i & j & r & H1 & H2 & _). split; by eapply elem_of_list_lookup_2. Qed.

Lemma mul_unit_r c u : good c → good u → objs c ≠ [] → atts c ≠ [] → identity_on u (atts c) →
  ∃ e, context_mul c u = Ok e ∧ objs e = objs c ∧ atts e = atts c ∧ np e = np c.
Proof.
  intros Hc Hu No Na (Ou & Au & Iu).
  destruct (mul_spec c u) as (e & He & Ge & Oe & Ae & Ie); try done; try apply Hc; try apply Hu; [by rewrite Ou|].
  exists e. split; [done|]. split; [done|]. split; [congruence|].
  apply table_of_incidence; [done|done|done|congruence|].
  intros g m. rewrite Ie. split.
  - intros (f & H1 & H2). apply Iu in H2 as [-> _]. done.
  - intros H. exists m. split; [done|]. apply Iu. split; [done|]. by destruct (incident_att _ _ _ H).
Qed.
Lemma mul_unit_l c u : good c → good u → objs c ≠ [] → identity_on u (objs c) →
  ∃ e, context_mul u c = Ok e ∧ objs e = objs c ∧ atts e = atts c ∧ np e = np c.
Proof.
  intros Hc Hu No (Ou & Au & Iu).
  destruct (mul_spec u c) as (e & He & Ge & Oe & Ae & Ie); try done; try apply Hc; try apply Hu; [by rewrite Ou|].
  exists e. split; [done|]. split; [congruence|]. split; [done|].
  apply table_of_incidence; [done|done|congruence|done|].
  intros g m. rewrite Ie. split.
  - intros (f & H1 & H2). apply Iu in H1 as [-> _]. done.
  - intros H. exists g. split; [|done]. apply Iu. split; [done|]. by destruct (incident_att _ _ _ H).
Qed.

Lemma up1_incident c o m : good c → o ∈ objs c → m ∈ up (abs c) {[o]} ↔ incident c o m.
Proof.
  intros Hg Ho. rewrite elem_of_up. split.
  - intros [_ H]. specialize (H o). rewrite elem_of_singleton in H. specialize (H eq_refl). by apply elem_of_fI in H.
  - intros H. destruct (incident_att _ _ _ H) as [_ Hm]. split; [by apply elem_of_list_to_set|].
    intros g ->%elem_of_singleton. by apply elem_of_fI.
Qed.

(** The attributes of an object in the product. *)
Lemma mul_intent c d e g : good c → good d → context_mul c d = Ok e → objs c ≠ [] → objs d ≠ [] → g ∈ objs c →
  ∃ J, get_object_intent e g = Ok J ∧
    ∀ m, m ∈ J ↔ ∃ F f I, get_object_intent c g = Ok F ∧ f ∈ F ∧ get_object_intent d f = Ok I ∧ m ∈ I.
Proof.
  intros Hc Hd He No Nd Hg. destruct (decide (atts c = objs d)) as [E|E]; [|by rewrite mul_mismatch in He].
  destruct (mul_spec c d) as (e' & He' & Ge & Oe & Ae & Ie); try done; try apply Hc; try apply Hd.
  assert (e' = e) as -> by congruence.
  exists (up (abs e) {[g]}). split; [apply get_object_intent_spec; [apply Ge..|by rewrite Oe]|].
  intros m. rewrite up1_incident by (done || by rewrite Oe). rewrite Ie. split.
  - intros (f & H1 & H2). pose proof (incident_att _ _ _ H2) as [Hf _].
    exists (up (abs c) {[g]}), f, (up (abs d) {[f]}).
    split; [by apply get_object_intent_spec; [apply Hc..|]|]. split; [by apply up1_incident|].
    split; [by apply get_object_intent_spec; [apply Hd..|]|by apply up1_incident].
  - intros (F & f & I & H1 & H2 & H3 & H4).
    rewrite get_object_intent_spec in H1 by (done || apply Hc). injection H1 as <-.
    apply up1_incident in H2; [|done..]. pose proof (incident_att _ _ _ H2) as [_ Hf]. rewrite E in Hf.
    rewrite get_object_intent_spec in H3 by (done || apply Hd). injection H3 as <-.
    apply up1_incident in H4; [|done..]. by exists f.
Qed.
