(** * Many-valued contexts and scaling: the final statements (C62-C64, C78, C79) *)
From Verif Require Import Py Spec ContextModel ContextSpec ContextMisc MvModel ScaleSpec MvFacts ScaleFacts Properties_Context.

(** ** C62 *)
Theorem C62_cells {V} (truth : V → bool) t os ats c : new_mv truth t os ats = Ok c →
  wf c ∧ (NoDup os → objs c = os) ∧ (NoDup ats → atts c = ats) ∧ (NoDup os → NoDup ats → good c) ∧
  ∀ i j, mv_cell c i j = (r ← get_or IndexError (t !! i); v ← get_or IndexError (r !! j); Ok (truth v)).
Proof. intros H. destruct (new_mv_cells truth t os ats c H) as (H1 & _ & _ & H2). exact (conj H1 H2). Qed.
Print Assumptions C62_cells.
Theorem C62_built {V} (truth : V → bool) t os ats :
  is_ok (new_mv truth t os ats) = true ↔ length t = length os ∧ ∀ r, r ∈ t → length r = length ats.
Proof. exact (new_mv_ok truth t os ats). Qed.
Print Assumptions C62_built.
(** Nothing but the truth value of the cells matters, for this and every later call. *)
Theorem C62_truth_only {V W} (truth : V → bool) (truth' : W → bool) t t' os ats :
  map (map truth) t = map (map truth') t' → new_mv truth t os ats = new_mv truth' t' os ats.
Proof. exact (new_mv_truth truth truth' t t' os ats). Qed.
Print Assumptions C62_truth_only.
(** No object can be added. *)
Theorem C62_add_object c row intent o :
  mv_add_object c row o = (c, Err AttributeError) ∧ mv_add_object_with_intent c intent o = (c, Err AttributeError).
Proof. exact (conj eq_refl eq_refl). Qed.
Print Assumptions C62_add_object.
(** Extraction: of columns, of rows by position, of rows by value. *)
Theorem C62_extract_columns c ns : good c → NoDup ns → (∀ a, a ∈ ns → a ∈ atts c) →
  ∃ c', mv_extract_subcontext c ns = Ok c' ∧ good c' ∧ objs c' = objs c ∧ atts c' = ns ∧
    ∀ g m, incident c' g m ↔ m ∈ ns ∧ incident c g m.
Proof.
  intros Hg. rewrite mv_extract_subcontext_spec by apply Hg. exact (extract_subcontext_spec c ns (good_wf c Hg) (good_distinct c Hg)).
Qed.
Print Assumptions C62_extract_columns.
Theorem C62_extract_rows c (cond : nat → bool) : good c →
  ∃ c', mv_extract_by_condition c cond = Ok c' ∧ good c' ∧ atts c' = atts c ∧ objs c' `sublist_of` objs c ∧
    (∀ i g, objs c !! i = Some g → g ∈ objs c' ↔ cond i = true) ∧ ∀ g m, incident c' g m ↔ g ∈ objs c' ∧ incident c g m.
Proof. intros Hg. exact (mv_extract_by_condition_spec c cond (good_wf c Hg) (good_distinct c Hg)). Qed.
Print Assumptions C62_extract_rows.
Theorem C62_extract_values {V} (eqv : bool → V → bool) c vals : good c → (∀ a v, (a, v) ∈ vals → a ∈ atts c) →
  ∃ c', mv_extract_by_values eqv c vals = Ok c' ∧ good c' ∧ atts c' = atts c ∧ objs c' `sublist_of` objs c ∧
    (∀ g, g ∈ objs c' ↔ g ∈ objs c ∧ ∀ a v, (a, v) ∈ vals → eqv (bool_decide (incident c g a)) v = true) ∧
    ∀ g m, incident c' g m ↔ g ∈ objs c' ∧ incident c g m.
Proof. intros Hg. exact (mv_extract_by_values_spec eqv c vals (good_wf c Hg) (good_distinct c Hg)). Qed.
Print Assumptions C62_extract_values.
(** The object with value 2 is not found by its value. *)
Theorem C62_value_refuted : ∃ t os ats c c', new_mv py_truth t os ats = Ok c ∧ t !! 0 = Some [NInt 2] ∧
  mv_cell c 0 0 = Ok true ∧ mv_extract_by_values py_eq_bool c [(sa, NInt 2)] = Ok c' ∧ objs c' = [].
Proof.
  exists [[NInt 2]; [NInt 1]; [NInt 0]], [o1; o2; o3], [sa]. eexists _, _.
  split; [reflexivity|]. split; [reflexivity|]. split; [reflexivity|]. split; reflexivity.
Qed.
Print Assumptions C62_value_refuted.
Definition mvt := [[NInt 2; NStr "x"; NInt 0]; [NInt 0; NStr ""; NInt 7]; [NInt (-1); NStr "0"; NInt 0]].
Definition mvx := get_ok empty_cxt (new_mv py_truth mvt [o1; o2; o3] [sa; sb; sc]).
Lemma mvx_built : new_mv py_truth mvt [o1; o2; o3] [sa; sb; sc] = Ok mvx.
Proof. reflexivity. Qed.
Example mvx_good : good mvx.
Proof. apply (C62_cells py_truth mvt [o1; o2; o3] [sa; sb; sc] mvx mvx_built); by apply (bool_decide_unpack _). Qed.
Example C62_case : mv_cell mvx 0 0 = Ok true ∧ mv_cell mvx 1 1 = Ok false ∧ mv_cell mvx 2 1 = Ok true ∧
  new_mv py_truth [[NInt 1; NInt 1; NInt 0]; [NInt 0; NInt 0; NInt 1]; [NInt 1; NInt 1; NInt 0]] [o1; o2; o3] [sa; sb; sc] = Ok mvx ∧
  objs (get_ok empty_cxt (mv_extract_by_values py_eq_bool mvx [(sa, NInt 1); (sc, NInt 0)])) = [o1; o3] ∧
  objs (get_ok empty_cxt (mv_extract_by_condition mvx (λ i, Nat.odd i))) = [o2] ∧
  np (get_ok empty_cxt (mv_extract_subcontext mvx [sc; sa])) = [[false; true]; [true; false]; [false; true]].
Proof. repeat split; reflexivity. Qed.

(** ** C63 *)
Theorem C63_scaled {V} (ev : string → V → res bool) mos mats mcell scales (val : nat → nat → V) :
  (∀ o a, o < length mos → a < length mats → mcell o a = Ok (val o a)) →
  (∀ a s e o, a < length mats → scales !! a = Some s → e ∈ objs s → o < length mos → ∃ b, eval_name ev e (val o a) = Ok b) →
  NoDup mos → length mats ≤ length scales → (∀ a, a ∈ mats → is_str a = true) →
  (∀ ai s, ai < length mats → scales !! ai = Some s → wf s ∧ distinct s ∧ ∀ m, m ∈ atts s → is_str m = true) →
  NoDup (derived_names mats scales) →
  ∃ c, scale_context ev mos mats mcell scales = Ok c ∧ wf c ∧ distinct c ∧ objs c = mos ∧ atts c = derived_names mats scales ∧
    ∀ o g ai a s m, mos !! o = Some g → mats !! ai = Some a → scales !! ai = Some s → m ∈ atts s →
      incident c g (NStr (pystr a ++ ":" ++ pystr m)) ↔ ∃ e, e ∈ objs s ∧ eval_name ev e (val o ai) = Ok true ∧ incident s e m.
Proof. exact (scale_context_spec ev mos mats mcell scales val). Qed.
Print Assumptions C63_scaled.
(** The same for a ManyValuedContext: only the truth value of a cell reaches the
    expressions. *)
Theorem C63_scaled_mv (ev : string → bool → res bool) c scales :
  good c → (∀ a s e b, a < length (atts c) → scales !! a = Some s → e ∈ objs s → ∃ b', eval_name ev e b = Ok b') →
  length (atts c) ≤ length scales → (∀ a, a ∈ atts c → is_str a = true) →
  (∀ ai s, ai < length (atts c) → scales !! ai = Some s → wf s ∧ distinct s ∧ ∀ m, m ∈ atts s → is_str m = true) →
  NoDup (derived_names (atts c) scales) →
  ∃ d, scale_mvcontext ev c scales = Ok d ∧ wf d ∧ distinct d ∧ objs d = objs c ∧ atts d = derived_names (atts c) scales ∧
    ∀ g ai a s m, g ∈ objs c → atts c !! ai = Some a → scales !! ai = Some s → m ∈ atts s →
      incident d g (NStr (pystr a ++ ":" ++ pystr m)) ↔ ∃ e, e ∈ objs s ∧ eval_name ev e (bool_decide (incident c g a)) = Ok true ∧ incident s e m.
Proof. exact (scale_mvcontext_spec ev c scales). Qed.
Print Assumptions C63_scaled_mv.
(** The names are distinct if no attribute of the many-valued context has a colon. *)
Theorem C63_names mats scales : NoDup mats → (∀ a, a ∈ mats → is_str a = true ∧ no_colon a) →
  (∀ s, s ∈ scales → NoDup (atts s) ∧ ∀ m, m ∈ atts s → is_str m = true) → NoDup (derived_names mats scales).
Proof. exact (derived_names_NoDup mats scales). Qed.
Print Assumptions C63_names.
Theorem C63_too_few {V} (ev : string → V → res bool) mos mats mcell scales :
  length scales < length mats → ∃ e, scale_context ev mos mats mcell scales = Err e.
Proof.
  intros H. destruct (scale_context ev mos mats mcell scales) as [c|e] eqn:E; [|by exists e].
  apply scale_context_few in E. lia.
Qed.
Print Assumptions C63_too_few.
Local Ltac built := first [apply get_ok_eq | symmetry; apply get_ok_eq]; vm_compute; reflexivity.
Definition scx := get_ok empty_cxt (mk_context [[true; false]; [true; true]] None [NStr "value > 0.5"; NStr "value < 0.5"] [NStr "any"; NStr "no"]).
Definition evx (e : string) (v : bool) : res bool :=
  if String.eqb e "value > 0.5" then Ok v else if String.eqb e "value < 0.5" then Ok (negb v) else Err NameError.
Example C63_case : ∃ d, scale_mvcontext evx mvx [scx; scx; scx; scx] = Ok d ∧
  atts d = [NStr "a:any"; NStr "a:no"; NStr "b:any"; NStr "b:no"; NStr "c:any"; NStr "c:no"] ∧
  np d = [[true; false; true; false; true; true]; [true; true; true; true; true; false]; [true; false; true; false; true; true]] ∧
  scale_mvcontext evx mvx [scx; scx] = Err IndexError ∧ scale_mvcontext (λ _ _, Err NameError) mvx [scx; scx; scx] = Err NameError.
Proof.
  exists (get_ok empty_cxt (scale_mvcontext evx mvx [scx; scx; scx; scx])). split; [built|]. split; [dec|]. split; [dec|]. split; vm_compute; reflexivity.
Qed.
(** Two derived attributes with the same name are both renamed. *)
Theorem C63_clash_refuted : ∃ ev c scales d, good c ∧ length scales = length (atts c) ∧
  (∀ e b, ∃ b', ev e b = Ok b') ∧ scale_mvcontext ev c scales = Ok d ∧ ∀ n, n ∈ atts d → n ∉ derived_names (atts c) scales.
Proof.
  set (c := get_ok empty_cxt (new_mv py_truth [[NInt 1; NInt 1]] [o1] [NStr "a"; NStr "a:b"])).
  set (scales := [get_ok empty_cxt (mk_context [[true]] None [NStr "True"] [NStr "b:c"]); get_ok empty_cxt (mk_context [[true]] None [NStr "True"] [NStr "c"])]).
  set (ev := (λ _ _, Ok true) : string → bool → res bool).
  exists ev, c, scales, (get_ok empty_cxt (scale_mvcontext ev c scales)). split.
  { eapply (C62_cells py_truth [[NInt 1; NInt 1]] [o1] [NStr "a"; NStr "a:b"]); [reflexivity|by apply (bool_decide_unpack _)..]. }
  split; [reflexivity|]. split; [intros; by exists true|]. split; [built|].
  change (∀ n, n ∈ atts (get_ok empty_cxt (scale_mvcontext ev c scales)) → n ∉ derived_names (atts c) scales).
  apply Forall_forall. dec.
Qed.
Print Assumptions C63_clash_refuted.

(** ** C64 *)
Theorem C64_leq lo hi mode : mode ≠ "geq"%string → ∃ c, ordinal_scale lo hi mode = Ok c ∧ good c ∧
  objs c = map (λ v, NStr ("value == " ++ pretty v)) (seqZ lo (hi + 1 - lo)) ∧ atts c = map (λ v, NStr ("<= " ++ pretty v)) (seqZ lo (hi - lo)) ∧
  ∀ v w, incident c (NStr ("value == " ++ pretty v)) (NStr ("<= " ++ pretty w)) ↔ (lo ≤ v ≤ hi ∧ lo ≤ w < hi ∧ v ≤ w)%Z.
Proof. exact (ordinal_leq lo hi mode). Qed.
Print Assumptions C64_leq.
Theorem C64_geq lo hi : ∃ c, ordinal_scale lo hi "geq" = Ok c ∧ good c ∧
  objs c = map (λ v, NStr ("value == " ++ pretty v)) (seqZ lo (hi + 1 - lo)) ∧ atts c = map (λ v, NStr (">= " ++ pretty v)) (seqZ (lo + 1) (hi - lo)) ∧
  ∀ v w, incident c (NStr ("value == " ++ pretty v)) (NStr (">= " ++ pretty w)) ↔ (lo ≤ v ≤ hi ∧ lo < w ≤ hi ∧ w ≤ v)%Z.
Proof. exact (ordinal_geq lo hi). Qed.
Print Assumptions C64_geq.
Example C64_case : ∃ c d, ordinal_scale (-1) 2 "leq" = Ok c ∧ atts c = [NStr "<= -1"; NStr "<= 0"; NStr "<= 1"] ∧
  np c = [[true; true; true]; [false; true; true]; [false; false; true]; [false; false; false]] ∧
  ordinal_scale 3 3 "geq" = Ok d ∧ objs d = [NStr "value == 3"] ∧ np d = [[]].
Proof.
  exists (get_ok empty_cxt (ordinal_scale (-1) 2 "leq")), (get_ok empty_cxt (ordinal_scale 3 3 "geq")).
  split; [built|]. split; [dec|]. split; [dec|]. split; [built|]. split; dec.
Qed.

(** ** C78 *)
(** [num v] is the number a cell stands for. *)
Theorem C78_leq {V} (num : V → Z) ev mos mats mcell (val : nat → nat → V) lo hi s :
  NoDup mos → NoDup mats → (∀ a, a ∈ mats → is_str a = true ∧ no_colon a) →
  (∀ o a, o < length mos → a < length mats → mcell o a = Ok (val o a)) →
  (∀ z v, ev ("value == " ++ pretty z)%string v = Ok (bool_decide (num v = z))) →
  ordinal_scale lo hi "leq" = Ok s →
  ∃ d, scale_context ev mos mats mcell (replicate (length mats) s) = Ok d ∧ wf d ∧ distinct d ∧ objs d = mos ∧
    ∀ o g ai a w, mos !! o = Some g → mats !! ai = Some a → (lo ≤ w < hi)%Z →
      incident d g (NStr (pystr a ++ ":<= " ++ pretty w)) ↔ (lo ≤ num (val o ai) ≤ w)%Z.
Proof. exact (ordinal_scaling_leq num ev mos mats mcell val lo hi s). Qed.
Print Assumptions C78_leq.
Theorem C78_geq {V} (num : V → Z) ev mos mats mcell (val : nat → nat → V) lo hi s :
  NoDup mos → NoDup mats → (∀ a, a ∈ mats → is_str a = true ∧ no_colon a) →
  (∀ o a, o < length mos → a < length mats → mcell o a = Ok (val o a)) →
  (∀ z v, ev ("value == " ++ pretty z)%string v = Ok (bool_decide (num v = z))) →
  ordinal_scale lo hi "geq" = Ok s →
  ∃ d, scale_context ev mos mats mcell (replicate (length mats) s) = Ok d ∧ wf d ∧ distinct d ∧ objs d = mos ∧
    ∀ o g ai a w, mos !! o = Some g → mats !! ai = Some a → (lo < w ≤ hi)%Z →
      incident d g (NStr (pystr a ++ ":>= " ++ pretty w)) ↔ (w ≤ num (val o ai) ≤ hi)%Z.
Proof. exact (ordinal_scaling_geq num ev mos mats mcell val lo hi s). Qed.
Print Assumptions C78_geq.
(** A value below the range is smaller than everything and has no attribute at all. *)
Definition evz (e : string) (v : Z) : res bool := Ok (String.eqb e ("value == " ++ pretty v)).
Theorem C78_range_refuted : ∃ lo hi s d, ordinal_scale lo hi "leq" = Ok s ∧ (0 < lo)%Z ∧ (lo < hi)%Z ∧
  scale_context evz [o1] [sa] (λ _ _, Ok 0%Z) [s] = Ok d ∧ ∀ g m, ¬ incident d g m.
Proof.
  set (s := get_ok empty_cxt (ordinal_scale 1 3 "leq")). exists 1%Z, 3%Z, s, (get_ok empty_cxt (scale_context evz [o1] [sa] (λ _ _, Ok 0%Z) [s])).
  split; [built|]. split; [done|]. split; [done|]. split; [built|].
  intros g m (i & j & r & _ & _ & Hr & Hb). assert (np (get_ok empty_cxt (scale_context evz [o1] [sa] (λ _ _, Ok 0%Z) [s])) = [[false; false]]) as E by dec.
  rewrite E in Hr. clear -Hr Hb. destruct i as [|i]; [|discriminate Hr]. injection Hr as <-. by destruct j as [|[|j]].
Qed.
Print Assumptions C78_range_refuted.
Example C78_case : ∃ s d, ordinal_scale 1 3 "leq" = Ok s ∧ scale_context evz [o1; o2; o3] [sa] (λ o _, Ok (Z.of_nat o + 1)%Z) [s] = Ok d ∧
  atts d = [NStr "a:<= 1"; NStr "a:<= 2"] ∧ np d = [[true; true]; [false; true]; [false; false]].
Proof.
  set (s := get_ok empty_cxt (ordinal_scale 1 3 "leq")). exists s, (get_ok empty_cxt (scale_context evz [o1; o2; o3] [sa] (λ o _, Ok (Z.of_nat o + 1)%Z) [s])).
  split; [built|]. split; [built|]. split; dec.
Qed.

(** ** C79 *)
Theorem C79_scale ord a c : good c → (∀ X : gset bool, ord X ≡ₚ elements X) → is_str a = true → a ∈ atts c →
  ∃ s vals, nominal_scale ord a c = Ok s ∧ good s ∧
    objs s = map (λ v : bool, NStr ("value == " ++ if v then "1.0" else "0.0")) vals ∧ atts s = map (λ v : bool, NStr (if v then "1.0" else "0.0")) vals ∧ NoDup vals ∧
    (∀ b, b ∈ vals ↔ ∃ g, g ∈ objs c ∧ b = bool_decide (incident c g a)) ∧
    ∀ v w : bool, incident s (NStr ("value == " ++ if v then "1.0" else "0.0")) (NStr (if w then "1.0" else "0.0")) ↔ v ∈ vals ∧ v = w.
Proof. exact (nominal_scale_spec ord a c). Qed.
Print Assumptions C79_scale.
(** Scaling every attribute by its nominal scale turns it into the attribute and its
    negation. *)
Theorem C79_scaled ord ev c : good c → (∀ X : gset bool, ord X ≡ₚ elements X) →
  (∀ a, a ∈ atts c → is_str a = true ∧ no_colon a) →
  (∀ v w : bool, ev ("value == " ++ if v then "1.0" else "0.0")%string w = Ok (bool_decide (v = w))) →
  ∃ scales d, mapM (λ a, nominal_scale ord a c) (atts c) = Ok scales ∧ scale_mvcontext ev c scales = Ok d ∧
    wf d ∧ distinct d ∧ objs d = objs c ∧
    ∀ g a (v : bool), g ∈ objs c → a ∈ atts c →
      incident d g (NStr (pystr a ++ ":" ++ if v then "1.0" else "0.0")) ↔ (v = true ↔ incident c g a).
Proof. exact (nominal_scaling ord ev c). Qed.
Print Assumptions C79_scaled.
Theorem C79_unknown ord a c : is_str a = true → a ∉ atts c → nominal_scale ord a c = Err ValueError.
Proof. exact (nominal_scale_err ord a c). Qed.
Print Assumptions C79_unknown.
(** A number is taken as a position, counted from the end when negative. *)
Theorem C79_position ord c z : good c → 
  (∀ k s, atts c !! k = Some (NStr s) → z = Z.of_nat k ∨ z = (Z.of_nat k - Z.of_nat (length (atts c)))%Z →
     nominal_scale ord (NInt z) c = nominal_scale ord (NStr s) c) ∧
  (objs c ≠ [] → (z < - Z.of_nat (length (atts c)))%Z ∨ (Z.of_nat (length (atts c)) ≤ z)%Z → nominal_scale ord (NInt z) c = Err IndexError).
Proof. intros Hg. split; [intros k s; exact (nominal_scale_index ord s c k z Hg)|exact (nominal_scale_range ord c z Hg)]. Qed.
Print Assumptions C79_position.
Definition up (X : gset bool) : list bool := filter (λ b, b ∈ X) [false; true].
Example up_order X : up X ≡ₚ elements X.
Proof.
  apply NoDup_Permutation; [unfold up; apply NoDup_filter; by apply (bool_decide_unpack _)|apply NoDup_elements|].
  intros b. unfold up. rewrite elem_of_list_filter, elem_of_elements. split; [tauto|]. intros H. split; [done|]. destruct b; repeat constructor.
Qed.
Definition evf (e : string) (v : bool) : res bool := Ok (bool_decide (e = "value == " ++ float_str v)%string).
Example C79_case : ∃ s1 s2 s3 d, nominal_scale up sa mvx = Ok s1 ∧ nominal_scale up sb mvx = Ok s2 ∧ nominal_scale up (NInt (-1)) mvx = Ok s3 ∧
  atts s1 = [NStr "0.0"; NStr "1.0"] ∧ scale_mvcontext evf mvx [s1; s2; s3] = Ok d ∧
  atts d = [NStr "a:0.0"; NStr "a:1.0"; NStr "b:0.0"; NStr "b:1.0"; NStr "c:0.0"; NStr "c:1.0"] ∧
  np d = [[false; true; false; true; true; false]; [true; false; true; false; false; true]; [false; true; false; true; true; false]].
Proof.
  set (s1 := get_ok empty_cxt (nominal_scale up sa mvx)). set (s2 := get_ok empty_cxt (nominal_scale up sb mvx)).
  set (s3 := get_ok empty_cxt (nominal_scale up (NInt (-1)) mvx)).
  exists s1, s2, s3, (get_ok empty_cxt (scale_mvcontext evf mvx [s1; s2; s3])). split; [built|]. split; [built|]. split; [built|].
  split; [dec|]. split; [built|]. split; dec.
Qed.
