(** * Exploration databases that share contexts and lists: the final statements (C106, C107) *)
From Verif Require Import Py Spec PyFacts SpecFacts ContextModel ContextSpec ContextOps ContextFacts ContextInit ContextFinal
  ClosureModel ClosureFacts DgModel AiModel ExplModel ExplSpec ExplFacts ExplDb ExplFinal ShareModel ShareSpec ShareFacts
  Properties_Context Properties_Closure Properties_Dg Properties_Ai Properties_Expl.

(** ** C106 *)
(** A database whose context and list nobody else uses behaves as if it were alone, whatever
    else the program does. *)
Theorem C106_separate p w k b d : sh_dbs w !! k = Some b → db_view w k = Some d → separate k (sd_cxt b) (sd_imps b) w p →
  db_view (s_run w p).1 k = Some (alone (own k p) d).1 ∧ own_results k p (s_run w p).2 = (alone (own k p) d).2.
Proof. exact (separate_alone p w k b d). Qed.
Print Assumptions C106_separate.

(** Two databases with a context and a list each, calls interleaved with the client's own changes
    to a third context and a third list. *)
Definition two := (s_run (Share [] [] [])
  [SCxt bx; SCxt bx; SCxt bx; SList []; SList []; SList []; SNew elts 0 0 always; SNew elts 1 1 always]).1.
Definition work : list scmd :=
  [SCall 0 elts (DConfirm ({[sb]}, {[sa; sb]})); SCall 1 elts (DAddExample o4 {[sb; sc]}); SMut 2 (OpDeleteObject o1);
   SCall 0 elts (DAddExample o4 {[sb]}); SAppend 2 ({[sc]}, {[sa]})].
Definition cells (w : share) (k : nat) : option (nat * nat) := b ← sh_dbs w !! k; Some (sd_cxt b, sd_imps b).
Definition dbx (w : share) (k : nat) : edb := default (EDB empty_cxt [] always [] true) (db_view w k).
Lemma dbx_view w k : (match db_view w k with Some _ => true | None => false end) = true → db_view w k = Some (dbx w k).
Proof. unfold dbx. by destruct (db_view w k). Qed.
Lemma cmd_Ok w c : (s_cmd w c).2 = Ok tt → s_cmd w c = ((s_cmd w c).1, Ok tt).
Proof. destruct (s_cmd w c) as [w' r]. cbn. by intros ->. Qed.
Example C106_case : length (sh_dbs two) = 2 ∧
  (∃ b d, sh_dbs two !! 0 = Some b ∧ db_view two 0 = Some d ∧ sd_cxt b = 0 ∧ sd_imps b = 0 ∧ separate 0 0 0 two work) ∧
  own_results 0 work (s_run two work).2 = [Ok tt; Err IllegalContextModification] ∧
  own_results 1 work (s_run two work).2 = [Ok tt] ∧ length (own 0 work) = 2.
Proof.
  split; [by vm_compute|]. split; [|split; [by vm_compute|split; by vm_compute]].
  assert (cells two 0 = Some (0, 0)) as H0 by by vm_compute.
  assert (cells (s_cmd two (SCall 0 elts (DConfirm ({[sb]}, {[sa; sb]})))).1 1 = Some (1, 1)) as H1 by by vm_compute.
  pose proof (dbx_view two 0 ltac:(by vm_compute)) as Hd.
  unfold cells in H0, H1. destruct (sh_dbs two !! 0) as [b|]; [|discriminate H0]. injection H0 as Hx Hj.
  exists b, (dbx two 0). split; [reflexivity|]. split; [exact Hd|]. split; [exact Hx|]. split; [exact Hj|]. clear -H1. unfold work.
  cbn [separate away]. split; [left; reflexivity|]. split.
  { right. intros b1 Hb1. rewrite Hb1 in H1. injection H1 as -> ->. clear. lia. }
  clear. split; [right; lia|]. split; [left; reflexivity|]. split; [right; lia|exact I].
Qed.

(** ** C107 *)
(** A call on one database is seen by every other: the context and the list are the shared ones,
    the other's open implications are not recomputed; the client's context and list are the same objects. *)
Theorem C107_shared w k k' b b' ords o d : k' ≠ k → sh_dbs w !! k = Some b → sh_dbs w !! k' = Some b' → db_view w k = Some d →
  let w' := (s_cmd w (SCall k ords o)).1 in let d1 := (dstep ords o d).1 in
  sh_dbs w' !! k' = Some b' ∧
  sh_cxts w' = <[sd_cxt b := (dcxt d1, djam d1)]> (sh_cxts w) ∧ sh_lists w' = <[sd_imps b := dimps d1]> (sh_lists w) ∧
  (sd_cxt b' = sd_cxt b → sd_imps b' = sd_imps b →
     db_view w' k' = Some (EDB (dcxt d1) (dimps d1) (sd_cond b') (sd_open b') (djam d1))).
Proof. exact (shared_call w k k' b b' ords o d). Qed.
Print Assumptions C107_shared.
(** The client's own changes reach the database without a call. *)
Theorem C107_client w k b d : sh_dbs w !! k = Some b → db_view w k = Some d →
  (∀ o, djam d = false → db_view (s_cmd w (SMut (sd_cxt b) o)).1 k = Some (with_cxt d (step (dcxt d) o).1)) ∧
  (∀ i, db_view (s_cmd w (SAppend (sd_imps b) i)).1 k = Some (with_imps d (dimps d ++ [i]))).
Proof. exact (client_seen w k b d). Qed.
Print Assumptions C107_client.
(** [touch] makes the database what a new one over the present context and list would be. *)
Theorem C107_touch w k ords d w' : db_view w k = Some d → s_cmd w (SCall k ords DTouch) = (w', Ok tt) →
  ∃ d', db_view w' k = Some d' ∧ new_db ords (dcxt d) (dimps d) (dcond d) = Ok d'.
Proof. exact (touch_new w k ords d w'). Qed.
Print Assumptions C107_touch.
(** In a team what was confirmed holds. *)
Theorem C107_team w k d : team w → db_view w k = Some d → ∀ i, i ∈ dimps d → holds (abs (dcxt d)) i.
Proof. intros Hw Hd. exact (proj2 (t_pre w (team_all w Hw) k d Hd)). Qed.
Print Assumptions C107_team.
(** In a team [touch] succeeds; then the open implications hold, none of them follows from
    the others and the base, and with the base they are complete. *)
Theorem C107_team_touch w k ords d : team w → lists_sets ords → db_view w k = Some d →
  ∃ w' d', s_cmd w (SCall k ords DTouch) = (w', Ok tt) ∧ team w' ∧ db_view w' k = Some d' ∧ dcxt d' = dcxt d ∧ dimps d' = dimps d ∧
    (∀ i, i ∈ dopen d' → holds (abs (dcxt d')) i) ∧
    (∀ R1 i R2, dopen d' = R1 ++ i :: R2 → ¬ entails (R1 ++ R2 ++ dimps d') i) ∧
    ∀ i, i.1 ⊆ fM (abs (dcxt d')) → i.2 ⊆ fM (abs (dcxt d')) → holds (abs (dcxt d')) i → entails (dopen d' ++ dimps d') i.
Proof. exact (team_touch w k ords d). Qed.
Print Assumptions C107_team_touch.
Definition cxt_and_list := (s_cmd (s_cmd (Share [] [] []) (SCxt bx)).1 (SList [])).1.
Definition first_db := (s_cmd cxt_and_list (SNew elts 0 0 always)).1.
Definition one := (s_cmd first_db (SNew elts 0 0 always)).1.
Definition one_cxt := (s_run (Share [] [] []) [SCxt bx; SList []; SList []; SNew elts 0 0 always; SNew elts 0 1 always]).1.
(** Without [touch]: two databases over one context and one list.  A counterexample given to one
    leaves the question of the other open; confirming it there puts an implication that does
    not hold into the base of both. *)
Theorem C107_stale_refuted : ∃ w i d d', db_view w 0 = Some d ∧ db_view w 1 = Some d' ∧ cells w 0 = Some (0, 0) ∧ cells w 1 = Some (0, 0) ∧ dimps d = [] ∧ holds (abs (dcxt d)) i ∧
  i ∈ dopen d ∧ i ∈ dopen d' ∧
  ∃ w1, s_cmd w (SCall 0 elts (DAddExample o4 {[sb; sc]})) = (w1, Ok tt) ∧
  ∃ d1, db_view w1 1 = Some d1 ∧ i ∈ dopen d1 ∧ ¬ holds (abs (dcxt d1)) i ∧
  ∃ w2, s_cmd w1 (SCall 1 elts (DConfirm i)) = (w2, Ok tt) ∧
  ∃ e0 e1, db_view w2 0 = Some e0 ∧ db_view w2 1 = Some e1 ∧ i ∈ dimps e0 ∧ i ∈ dimps e1 ∧ ¬ holds (abs (dcxt e0)) i ∧ ¬ holds (abs (dcxt e1)) i.
Proof.
  set (w := one). set (i := ({[sb]}, {[sa; sb]}) : fimp).
  set (w1 := (s_cmd w (SCall 0 elts (DAddExample o4 {[sb; sc]}))).1). set (w2 := (s_cmd w1 (SCall 1 elts (DConfirm i))).1).
  exists w, i, (dbx w 0), (dbx w 1). split; [apply dbx_view; dec|]. split; [apply dbx_view; dec|].
  split; [dec|]. split; [dec|]. split; [dec|]. split; [rewrite holds_forall; dec|]. split; [dec|]. split; [dec|].
  exists w1. split; [apply cmd_Ok; dec|]. exists (dbx w1 1). split; [apply dbx_view; dec|]. split; [dec|].
  split; [rewrite holds_forall; dec|]. exists w2. split; [apply cmd_Ok; dec|]. exists (dbx w2 0), (dbx w2 1).
  split; [apply dbx_view; dec|]. split; [apply dbx_view; dec|]. split; [dec|]. split; [dec|]. split; rewrite holds_forall; dec.
Qed.
Print Assumptions C107_stale_refuted.
(** One context but a list each: an example given to one database need not respect what was
    confirmed in the other. *)
Theorem C107_lists_refuted : ∃ w i d, cells w 0 = Some (0, 0) ∧ cells w 1 = Some (0, 1) ∧ db_view w 0 = Some d ∧ dimps d = [i] ∧ holds (abs (dcxt d)) i ∧
  ∃ w1, s_cmd w (SCall 1 elts (DAddExample o4 {[sb; sc]})) = (w1, Ok tt) ∧
  ∃ d1, db_view w1 0 = Some d1 ∧ dimps d1 = [i] ∧ ¬ holds (abs (dcxt d1)) i.
Proof.
  set (i := ({[sb]}, {[sa; sb]}) : fimp). set (w := (s_cmd one_cxt (SCall 0 elts (DConfirm i))).1).
  set (w1 := (s_cmd w (SCall 1 elts (DAddExample o4 {[sb; sc]}))).1).
  exists w, i, (dbx w 0). split; [dec|]. split; [dec|]. split; [apply dbx_view; dec|]. split; [dec|]. split; [rewrite holds_forall; dec|].
  exists w1. split; [apply cmd_Ok; dec|]. exists (dbx w1 0). split; [apply dbx_view; dec|]. split; [dec|].
  rewrite holds_forall. dec.
Qed.
Print Assumptions C107_lists_refuted.
(** A team: two databases over one context and one list, one confirms, the other adds an example. *)
Lemma fit c : bx = c → good c ∧ comparable (atts c) = true ∧ objs c ≠ [] ∧ within (abs c) [] ∧ no_repeats [] ∧ valid (abs c) [].
Proof.
  intros <-. split; [exact bx_good|]. split; [apply bx_explorable|]. split; [apply bx_explorable|]. split; [exact (proj1 bx_background)|].
  split; [exact (proj2 bx_background)|]. by intros j Hj%not_elem_of_nil.
Qed.
Lemma cxt_and_list_is : cxt_and_list = Share [(bx, false)] [[]] [].
Proof. reflexivity. Qed.
Lemma team_1 : team cxt_and_list.
Proof. apply team_step; [|exact I]. apply team_step; [constructor|exact I]. Qed.
Lemma team_2 : team first_db.
Proof.
  apply team_step; [exact team_1|]. rewrite cxt_and_list_is. split; [exact elts_lists|]. split; [reflexivity|]. split.
  - intros k b Hb. cbn [sh_dbs] in Hb. by rewrite lookup_nil in Hb.
  - intros c jam L. cbn [sh_cxts sh_lists]. intros [= <- <-] [= <-]. exact (fit bx eq_refl).
Qed.
Lemma first_cells : map sd_cxt (sh_dbs first_db) = [0] ∧ map sd_imps (sh_dbs first_db) = [0].
Proof. split; dec. Qed.
Lemma first_values : map fst (sh_cxts first_db) = [bx] ∧ sh_lists first_db = [[]].
Proof.
  unfold first_db. cbn [s_cmd]. destruct (s_new_keeps cxt_and_list elts 0 0 always) as [-> ->]. by rewrite cxt_and_list_is.
Qed.
Lemma one_team : team one.
Proof.
  pose proof team_2 as H3. pose proof first_cells as [Hx Hj]. pose proof first_values as [Hc HL]. unfold one.
  generalize dependent first_db. intros w3 H3 Hx Hj Hc HL.
  apply (team_step w3 (SNew elts 0 0 always)); [exact H3|]. split; [exact elts_lists|]. split; [reflexivity|]. split.
  - intros k b Hb. apply elem_of_list_lookup_2 in Hb.
    assert (sd_cxt b ∈ [0]) as H0 by (rewrite <-Hx; apply elem_of_list_fmap; by exists b).
    assert (sd_imps b ∈ [0]) as H1 by (rewrite <-Hj; apply elem_of_list_fmap; by exists b).
    apply elem_of_list_singleton in H0, H1. by rewrite H0, H1.
  - intros c jam L Ec EL. rewrite HL in EL. injection EL as <-. apply elem_of_list_lookup_2 in Ec.
    assert (c ∈ [bx]) as H0%elem_of_list_singleton by (rewrite <-Hc; apply elem_of_list_fmap; by exists (c, jam)).
    by apply fit.
Qed.
Lemma Some_eq {A} (x y : A) : Some x = Some y → x = y.
Proof. congruence. Qed.
Lemma one_view : (match db_view one 0 with Some _ => true | None => false end) = true.
Proof. by vm_compute. Qed.
Lemma run_two w c1 c2 : (s_run w [c1; c2]).1 = (s_cmd (s_cmd w c1).1 c2).1.
Proof. cbn. destruct (s_cmd w c1) as [w1 r1]. cbn. by destruct (s_cmd w1 c2). Qed.
Example C107_team_case : ∃ w, team w ∧ (s_run one [SCall 0 elts (DConfirm ({[sb]}, {[sa; sb]})); SCall 1 elts (DAddExample o4 {[sa]})]).1 = w ∧
  (s_run one [SCall 0 elts (DConfirm ({[sb]}, {[sa; sb]})); SCall 1 elts (DAddExample o4 {[sa]})]).2 = [Ok tt; Ok tt] ∧
  dimps (dbx w 1) = [({[sb]}, {[sa; sb]})] ∧ dopen (dbx w 0) = [] ∧ objs (dcxt (dbx w 0)) = [o1; o2; o3; o4].
Proof.
  eexists. split; [|split; [reflexivity|split; [dec|split; [dec|split; dec]]]]. rewrite run_two.
  apply team_step; [|split; [exact elts_lists|by intros]]. apply team_step; [exact one_team|]. split; [exact elts_lists|].
  intros d Hd. rewrite (dbx_view one 0 one_view) in Hd. rewrite <-(Some_eq _ _ Hd). dec.
Qed.
