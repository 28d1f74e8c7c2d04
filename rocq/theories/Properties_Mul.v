(** * Laws of the product of contexts (C130) *)
From Verif Require Import Py Spec ContextModel ContextSpec ContextOps PyFacts SpecFacts ContextFacts ContextInit
  ContextMut ContextEffects ContextMisc ContextReduce ContextEq ContextFinal Properties_Context MulSpec MulFacts.

(** Both ways of bracketing a product of three contexts succeed and give the same
    objects, the same attributes and the same table. *)
Theorem C130_associative c d e :
  good c → good d → good e → objs c ≠ [] → objs d ≠ [] → objs e ≠ [] →
  atts c = objs d → atts d = objs e →
  ∃ cd de l r, context_mul c d = Ok cd ∧ context_mul d e = Ok de ∧
    context_mul cd e = Ok l ∧ context_mul c de = Ok r ∧
    objs l = objs r ∧ atts l = atts r ∧ np l = np r ∧
    objs l = objs c ∧ atts l = atts e ∧
    ∀ g m, incident l g m ↔ ∃ x y, incident c g x ∧ incident d x y ∧ incident e y m.
Proof. exact (mul_assoc c d e). Qed.
Print Assumptions C130_associative.

(** Transposing a product is multiplying the transposed factors in the other order. *)
Theorem C130_transpose c d :
  good c → good d → objs c ≠ [] → objs d ≠ [] → atts d ≠ [] → atts c = objs d →
  ∃ cd t tc td r, context_mul c d = Ok cd ∧ transpose cd = Ok t ∧
    transpose c = Ok tc ∧ transpose d = Ok td ∧ context_mul td tc = Ok r ∧
    objs t = objs r ∧ atts t = atts r ∧ np t = np r ∧
    objs t = atts d ∧ atts t = objs c.
Proof. exact (mul_transpose c d). Qed.
Print Assumptions C130_transpose.

(** Multiplying by an identity context on either side changes nothing. *)
Theorem C130_unit_right c u : good c → good u → objs c ≠ [] → atts c ≠ [] → identity_on u (atts c) →
  ∃ e, context_mul c u = Ok e ∧ objs e = objs c ∧ atts e = atts c ∧ np e = np c.
Proof. exact (mul_unit_r c u). Qed.
Print Assumptions C130_unit_right.
Theorem C130_unit_left c u : good c → good u → objs c ≠ [] → identity_on u (objs c) →
  ∃ e, context_mul u c = Ok e ∧ objs e = objs c ∧ atts e = atts c ∧ np e = np c.
Proof. exact (mul_unit_l c u). Qed.
Print Assumptions C130_unit_left.

(** The intent of an object in a product, as the two factors report intents. *)
Theorem C130_intent c d e g : good c → good d → context_mul c d = Ok e → objs c ≠ [] → objs d ≠ [] → g ∈ objs c →
  ∃ J, get_object_intent e g = Ok J ∧
    ∀ m, m ∈ J ↔ ∃ F f I, get_object_intent c g = Ok F ∧ f ∈ F ∧ get_object_intent d f = Ok I ∧ m ∈ I.
Proof. exact (mul_intent c d e g). Qed.
Print Assumptions C130_intent.

(** ** Cases *)
Definition md := get_ok empty_cxt (mk_context [[true; false]; [false; true]; [true; true]] None [sa; sb; sc] [NStr "p"; NStr "q"]).
Definition me := get_ok empty_cxt (mk_context [[false; true]; [true; false]] None [NStr "p"; NStr "q"] [NStr "y"; NStr "z"]).
Definition mu := get_ok empty_cxt
  (mk_context [[true; false; false]; [false; true; false]; [false; false; true]] None [sa; sb; sc] [sa; sb; sc]).
Example md_good : good md.
Proof.
  eapply (mk_context_good [[true; false]; [false; true]; [true; true]] None); [by apply get_ok_eq| | |done];
    by apply (bool_decide_unpack _).
Qed.
Example me_good : good me.
Proof.
  eapply (mk_context_good [[false; true]; [true; false]] None); [by apply get_ok_eq| | |done];
    by apply (bool_decide_unpack _).
Qed.
Example mu_good : good mu.
Proof.
  eapply (mk_context_good [[true; false; false]; [false; true; false]; [false; false; true]] None);
    [by apply get_ok_eq| | |done]; by apply (bool_decide_unpack _).
Qed.
Example mu_identity : identity_on mu (atts ex).
Proof.
  split; [reflexivity|]. split; [reflexivity|]. intros a b. split.
  - intros H. destruct (incident_att _ _ _ H) as [Ha Hb]. split; [|exact Ha].
    assert (Forall (λ a, Forall (λ b, (a, b) ∈ fI (abs mu) → a = b) [sa; sb; sc]) [sa; sb; sc]) as HF by dec.
    rewrite Forall_forall in HF. specialize (HF a Ha). rewrite Forall_forall in HF.
    apply (HF b Hb). by apply elem_of_fI.
  - intros [<- Ha].
    assert (Forall (λ a, (a, a) ∈ fI (abs mu)) [sa; sb; sc]) as HF by dec.
    rewrite Forall_forall in HF. specialize (HF a Ha). by apply elem_of_fI in HF.
Qed.
Example C130_case :
  ∃ cd de l r, context_mul ex md = Ok cd ∧ context_mul md me = Ok de ∧
    context_mul cd me = Ok l ∧ context_mul ex de = Ok r ∧
    np cd = [[true; true]; [true; true]; [true; false]; [false; false]] ∧
    np l = [[true; true]; [true; true]; [false; true]; [false; false]] ∧ np r = np l.
Proof. do 4 eexists. repeat split; reflexivity. Qed.
Example C130_case_unit : ∃ e, context_mul ex mu = Ok e ∧ np e = np ex.
Proof. destruct (C130_unit_right ex mu ex_good mu_good) as (e & He & _ & _ & Hn); [done..|apply mu_identity|]. by exists e. Qed.
(** The product does not commute, even for contexts over one list of names. *)
Example C130_case_order : ∃ c d e f, context_mul c d = Ok e ∧ context_mul d c = Ok f ∧ np e ≠ np f.
Proof.
  exists (get_ok empty_cxt (mk_context [[true; true]; [false; false]] None [sa; sb] [sa; sb])),
         (get_ok empty_cxt (mk_context [[true; false]; [true; false]] None [sa; sb] [sa; sb])).
  do 2 eexists. split; [reflexivity|]. split; [reflexivity|]. done.
Qed.
