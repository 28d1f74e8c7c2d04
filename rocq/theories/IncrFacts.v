(** * Facts on the object-incremental algorithms *)
From stdpp Require Import pretty.
From Verif Require Import Py Spec PyFacts SpecFacts ContextModel ContextSpec ContextFacts ContextEffects ContextMisc
  ClosureModel ClosureFacts LatticeModel NorrisFacts CoverModel CoverFacts MulFacts IncrModel IncrSpec.

(** ** The rows of contexts with more objects *)
Lemma rows_extended c c' : good c → good c' → atts c' = atts c →
  ∀ g, g ∈ objs c → g ∈ objs c' → (∀ m, incident c' g m ↔ incident c g m) → up (abs c') {[g]} = up (abs c) {[g]}.
Proof.
  intros Hg Hg' Ha g H1 H2 Hinc. apply set_eq. intros m. rewrite !up1_incident by done. apply Hinc.
Qed.
Lemma added_rows c I o c' : good c → o ∉ objs c → add_object_with_intent c I o = (c', Ok tt) →
  good c' ∧ objs c' = objs c ++ [o] ∧ atts c' = atts c ∧ (∀ g, g ∈ objs c → up (abs c') {[g]} = up (abs c) {[g]}) ∧
  up (abs c') {[o]} = list_to_set (atts c) ∩ I.
Proof.
  intros Hg Ho E. destruct (add_object_with_intent_effect c I o) as (c1 & E1 & Hg' & Ho' & Ha' & Hinc); [apply Hg..|done|].
  assert (c1 = c') as -> by congruence. split; [done|]. split; [done|]. split; [done|]. split.
  - intros g H. apply (rows_extended c c' Hg Hg' Ha'); [done|rewrite Ho'; apply elem_of_app; by left|].
    intros m. rewrite Hinc. split; [|by left]. intros [H1|[-> _]]; done.
  - apply set_eq. intros m. rewrite up1_incident, Hinc, elem_of_intersection, elem_of_list_to_set by (done || rewrite Ho'; set_solver).
    split; [|tauto]. intros [H|H]; [|tauto]. by apply incident_att in H as [H _].
Qed.
Lemma examples_added c I o c' : good c → o ∉ objs c → add_object_with_intent c I o = (c', Ok tt) →
  ∃ exs, examples c = Ok exs ∧ examples c' = Ok (exs ++ [list_to_set (atts c) ∩ I]) ∧ length exs = length (objs c).
Proof.
  intros Hg Ho E. destruct (added_rows c I o c' Hg Ho E) as (Hg' & Ho' & Ha' & Hold & Hnew).
  eexists. split; [by apply examples_eq|]. rewrite (examples_eq c' Hg'), Ho', map_app. cbn [map]. rewrite Hnew. split; [|by rewrite map_length].
  do 2 f_equal. apply map_ext_in. intros g Hin%elem_of_list_In. by apply Hold.
Qed.

(** ** Covers *)
Lemma cover_rows_app ord k M ts us B :
  cover_rows ord k M (ts ++ us) B = (R ← cover_rows ord k M ts B; cover_rows ord (k + length ts) M us R).
Proof.
  revert k B. induction ts as [|t ts IH]; intros k B; cbn [app cover_rows length]; [by rewrite Nat.add_0_r|].
  destruct (updated_basis _ _ _ _) as [b|e]; [|done]. cbn [mbind res_bind]. rewrite IH. by rewrite Nat.add_succ_r.
Qed.
Lemma cover_added c I o c' ord : good c → o ∉ objs c → add_object_with_intent c I o = (c', Ok tt) →
  compute_implication_cover c' ord =
    (R ← compute_implication_cover c ord;
     updated_basis (ord (length (objs c))) (list_to_set (atts c) ∩ I) R (list_to_set (atts c))).
Proof.
  intros Hg Ho E. destruct (examples_added c I o c' Hg Ho E) as (exs & E1 & E2 & Hl).
  destruct (added_rows c I o c' Hg Ho E) as (_ & _ & Ha' & _).
  unfold compute_implication_cover. rewrite E1, E2, Ha'. cbn [mbind res_bind]. rewrite cover_rows_app, Hl. cbn [Nat.add].
  destruct (cover_rows _ _ _ exs _) as [R|e]; [|done]. cbn [mbind res_bind cover_rows]. by destruct (updated_basis _ _ _ _).
Qed.

(** ** What is printed *)
Lemma printed_result ord k M ts B i : (cover_rows_printed ord k M ts B i).1 = cover_rows ord k M ts B.
Proof.
  revert k B i. induction ts as [|t ts IH]; intros k B i; [done|]. cbn [cover_rows_printed cover_rows].
  destruct (updated_basis _ _ _ _) as [b|e]; [|done]. cbn [mbind res_bind]. rewrite <-(IH (S k) b (S i)).
  by destruct (cover_rows_printed _ _ _ _ _ _).
Qed.
Lemma printed_lines ord k M ts B i R : cover_rows ord k M ts B = Ok R →
  length (cover_rows_printed ord k M ts B i).2 = 2 * length ts ∧
  ∀ j Rj, j < length ts → cover_rows ord k M (take (S j) ts) B = Ok Rj →
    (cover_rows_printed ord k M ts B i).2 !! (2 * j) = Some ("object  " ++ pretty (S (i + j)))%string ∧
    (cover_rows_printed ord k M ts B i).2 !! (S (2 * j)) = Some (pretty (length Rj) ++ " implications")%string.
Proof.
  revert k B i. induction ts as [|t ts IH]; intros k B i; cbn [cover_rows_printed cover_rows]; [split; [done|intros; cbn in *; lia]|].
  destruct (updated_basis _ _ _ _) as [b|e] eqn:Eb; [|done]. cbn [mbind res_bind]. intros E.
  specialize (IH (S k) b (S i) E). destruct (cover_rows_printed _ (S k) _ _ _ _) as [r out]. cbn [snd length] in *.
  destruct IH as [H1 H2]. split; [lia|]. intros j Rj Hj. destruct j as [|j].
  - change (take 1 (t :: ts)) with [t]. cbn [cover_rows]. rewrite Eb. cbn [mbind res_bind]. intros HR. assert (Rj = b) as -> by congruence. rewrite Nat.add_0_r. done.
  - change (take (S (S j)) (t :: ts)) with (t :: take (S j) ts). cbn [cover_rows]. rewrite Eb. cbn [mbind res_bind]. intros HR.
    replace (2 * S j) with (S (S (2 * j))) by lia. cbn [lookup list_lookup]. destruct (H2 j Rj ltac:(lia) HR) as [H3 H4].
    replace (S (i + S j)) with (S (S i + j)) by lia. split; [exact H3|exact H4].
Qed.
Lemma examples_initial c ck k : good c → good ck → objs ck = take k (objs c) → atts ck = atts c →
  (∀ g m, g ∈ objs ck → incident ck g m ↔ incident c g m) →
  ∃ exs, examples c = Ok exs ∧ examples ck = Ok (take k exs) ∧ length exs = length (objs c).
Proof.
  intros Hg Hgk Ho Ha Hinc. eexists. split; [by apply examples_eq|]. rewrite (examples_eq ck Hgk). split; [|by rewrite map_length].
  f_equal. rewrite <-fmap_take, <-Ho. apply map_ext_in. intros g Hin%elem_of_list_In.
  apply (rows_extended c ck Hg Hgk Ha); [|done|].
  - rewrite Ho in Hin. by eapply elem_of_take in Hin as (i & Hi & _); eapply elem_of_list_lookup_2.
  - intros m. by apply Hinc.
Qed.

(** ** Norris *)
Lemma norris_rows_snoc prev rows row cs tr :
  (norris_rows prev (rows ++ [row]) cs tr).1 =
    let r := map (norris_one (prev ++ rows) row) (norris_rows prev rows cs tr).1 in map fst r ++ omap snd r.
Proof.
  revert prev cs tr. induction rows as [|x rows IH]; intros prev cs tr; cbn [app norris_rows]; [by rewrite app_nil_r|].
  rewrite IH. by rewrite <-app_assoc.
Qed.
Lemma norris_eq c : good c → norris c = Ok (norris_rows [] (cxt_rows c) [(∅, list_to_set (atts c))] [(∅, list_to_set (atts c))]).1.
Proof. intros Hg. unfold norris, norris_run. rewrite examples_eq by done. cbn [mbind res_bind]. rewrite rows_eq by done. done. Qed.
Lemma norris_added c I o c' cs : good c → o ∉ objs c → add_object_with_intent c I o = (c', Ok tt) → norris c = Ok cs →
  let J := list_to_set (atts c) ∩ I in
  ∃ new, norris c' = Ok (map (λ x : fconcept, if bool_decide (x.2 ⊆ J) then (x.1 ∪ {[o]}, x.2) else x) cs ++ new) ∧
    (∀ y, y ∈ new → o ∈ y.1 ∧ y.2 ∉ map snd cs ∧ ∃ x, x ∈ cs ∧ y = ({[o]} ∪ x.1, x.2 ∩ J)) ∧
    length new ≤ length cs.
Proof.
  intros Hg Ho E Hcs J. destruct (added_rows c I o c' Hg Ho E) as (Hg' & Ho' & Ha' & Hold & Hnew). fold J in Hnew.
  assert (cxt_rows c' = cxt_rows c ++ [(o, J)]) as Hrows.
  { unfold cxt_rows. rewrite Ho', map_app. cbn [map]. rewrite Hnew. f_equal. apply map_ext_in. intros g Hin%elem_of_list_In. by rewrite Hold. }
  destruct (norris_run_spec c Hg) as (cs0 & tr & Hr & Hinv & _).
  assert (cs0 = cs) as ->. { unfold norris in Hcs. rewrite Hr in Hcs. cbn in Hcs. congruence. }
  rewrite norris_eq in Hcs by done. rewrite norris_eq by done. rewrite Hrows, norris_rows_snoc, Ha'. cbn [app].
  set (cs1 := (norris_rows _ _ _ _).1) in *. assert (cs1 = cs) as -> by congruence. cbv zeta.
  exists (omap snd (map (norris_one (cxt_rows c) (o, J)) cs)). split; [|split].
  - do 2 f_equal. rewrite map_map. apply map_ext. intros x. unfold norris_one. cbn [fst snd].
    destruct (bool_decide (x.2 ⊆ J)); [done|]. by destruct (norris_new _ _ _).
  - assert (NoDup (map fst (cxt_rows c ++ [(o, J)]))) as Hnd.
    { rewrite <-Hrows. unfold cxt_rows. rewrite map_map. cbn. rewrite map_id. apply Hg'. }
    intros y Hy. apply (elem_of_news (fM (abs c)) _ _ _ _ Hnd Hinv) in Hy as (x & Hx & Hgen & ->). cbn [fst snd].
    split; [clear; set_solver|]. split; [|by exists x]. intros (z & E1 & Hz)%elem_of_list_fmap.
    apply (gen_not_old (fM (abs c)) _ _ x.2 (inv_closed _ _ _ Hinv x Hx) Hgen). rewrite E1. by apply (inv_closed _ _ _ Hinv).
  - clear. induction cs as [|x cs IH]; [done|]. cbn. destruct (norris_one _ _ x) as [a [b|]]; cbn; lia.
Qed.

(** ** [print_basis] *)
Lemma print_imps_ok l ss : mapM imp_repr l = Ok ss → print_imps l = (Ok tt, ss ++ ["+++"%string]).
Proof.
  revert ss. induction l as [|i l IH]; intros ss; cbn [mapM print_imps]; [intros [= <-]; done|].
  destruct (imp_repr i) as [s|e]; [|done]. cbn [mbind res_bind]. destruct (mapM imp_repr l) as [ss'|e]; [|done].
  intros [= <-]. by rewrite (IH ss' eq_refl).
Qed.
Lemma print_imps_err l1 i l2 ss e : mapM imp_repr l1 = Ok ss → imp_repr i = Err e → print_imps (l1 ++ i :: l2) = (Err e, ss).
Proof.
  revert ss. induction l1 as [|j l IH]; intros ss; cbn [mapM app print_imps].
  - intros [= <-] ->. done.
  - destruct (imp_repr j) as [s|e']; [|done]. cbn [mbind res_bind]. destruct (mapM imp_repr l) as [ss'|e']; [|done].
    intros [= <-] Hi. by rewrite (IH ss' eq_refl Hi).
Qed.

(** ** [minimize] *)
Lemma minimize_printed_result todo cover h i : (minimize_loop_printed todo cover h i).1 = minimize_loop todo cover h.
Proof.
  revert cover h i. induction todo as [|r todo IH]; intros cover h i; [done|]. cbn [minimize_loop_printed minimize_loop].
  destruct (remove_ref h r cover) as [cover'|e]; [|done]. cbn [mbind res_bind].
  destruct (simple_closure _ _) as [P|e]; [|done]. cbn [mbind res_bind]. rewrite <-(IH _ _ (S i)).
  by destruct (minimize_loop_printed _ _ _ _).
Qed.
Lemma remove_ref_length h r l l' : remove_ref h r l = Ok l' → length l = S (length l').
Proof.
  revert l'. induction l as [|s l IH]; intros l'; cbn [remove_ref]; [done|]. destruct (_ || _); [intros [= ->]; done|].
  destruct (remove_ref h r l) as [l2|e]; [|done]. cbn [mbind res_bind]. intros [= <-]. cbn. by rewrite (IH l2 eq_refl).
Qed.
Lemma minimize_lines_cons i n ns :
  minimize_lines i (n :: ns) = ("maximizing premise  " ++ pretty (S i))%string :: ("(" ++ pretty n ++ ", 'implications')")%string :: minimize_lines (S i) ns.
Proof.
  unfold minimize_lines. cbn [imap]. rewrite Nat.add_0_r. cbn. do 3 f_equal. apply imap_ext. intros k x _. cbn. by rewrite Nat.add_succ_r.
Qed.
Lemma minimize_printed_lines todo cover h i cover' h' : minimize_loop todo cover h = Ok (cover', h') →
  ∃ ns, (minimize_loop_printed todo cover h i).2 = minimize_lines i ns ∧ length ns = length todo ∧
    going_down (length cover) ns ∧ last (length cover :: ns) = Some (length cover').
Proof.
  revert cover h i. induction todo as [|r todo IH]; intros cover h i; cbn [minimize_loop_printed minimize_loop].
  - intros E. assert (cover = cover') as -> by congruence. by exists [].
  - destruct (remove_ref h r cover) as [c1|e] eqn:Er; [|done]. cbn [mbind res_bind].
    destruct (simple_closure _ _) as [P|e]; [|done]. cbn [mbind res_bind]. intros E.
    destruct (IH _ _ (S i) E) as (ns & H1 & H2 & H3 & H4). destruct (minimize_loop_printed _ _ _ _) as [rr out]. cbn [snd] in *.
    eexists (_ :: ns). rewrite minimize_lines_cons. split; [by rewrite H1|]. split; [cbn; by rewrite H2|].
    split; [|rewrite <-H4; done]. split; [|exact H3]. apply remove_ref_length in Er.
    destruct (bool_decide _); [right; done|left; rewrite app_length; cbn; lia].
Qed.
