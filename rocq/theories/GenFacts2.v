(** * Suspended generators: Norris' algorithm *)
From Verif Require Import Py Spec PyFacts SpecFacts ContextModel ContextSpec ContextOps ContextFacts
  LatticeModel LatticeFacts NorrisFacts GenModel GenFacts.

Lemma norris_rows_tr prev rows cs tr : norris_rows prev rows cs tr =
  ((norris_rows prev rows cs []).1, tr ++ (norris_rows prev rows cs []).2).
Proof.
  revert prev cs tr. induction rows as [|row rows IH]; intros prev cs tr; cbn [norris_rows fst snd].
  { by rewrite app_nil_r. }
  cbn [app]. rewrite (IH _ _ (tr ++ _)). rewrite (IH _ _ (omap snd _)). cbn [fst snd]. by rewrite (assoc_L (++)).
Qed.

Lemma take_more {A} k m (l : list A) x : k ≤ m → take k (l ++ replicate m x) = take k (l ++ replicate k x).
Proof.
  assert (∀ m m', k ≤ m → k ≤ m' → take k (l ++ replicate m x) = take k (l ++ replicate m' x)) as H; [|intros; by apply H].
  revert k. induction l as [|y l IH]; intros k a b Ha Hb; cbn [app].
  - rewrite !take_replicate. f_equal. lia.
  - destruct k as [|k]; [done|]. cbn [take]. f_equal. apply IH; lia.
Qed.
Section norris.
  Context (L : list (name * gset name)).
  Local Notation exs := (map snd L).
  (** The context still has the objects of [L] in front. *)
  Definition fronts (os : list name) : Prop := ∀ j, j < length L → os !! j = map fst L !! j.

  Lemma lookup_parts (os : list name) j p : fronts os → L !! j = Some p → os !! j = Some p.1 ∧ exs !! j = Some p.2.
  Proof.
    intros Hf Hj. split.
    - rewrite Hf by (by eapply lookup_lt_Some). apply map_lookup_Some. by exists p.
    - apply map_lookup_Some. by exists p.
  Qed.
  Lemma gen_new_spec os A N j n : fronts os → j + n ≤ length L → ngen_new os exs A N j n = Ok (norris_new (take n (drop j L)) A N).
  Proof.
    intros Hf. revert j. induction n as [|n IH]; intros j Hj; [done|].
    destruct (lookup_lt_is_Some_2 L j) as [p Hp]; [lia|]. destruct (lookup_parts os j p Hf Hp) as [H1 H2].
    cbn [ngen_new]. rewrite H2. cbn [get_or mbind res_bind]. rewrite (drop_S L p j Hp). cbn [take norris_new forallb].
    rewrite IH by lia. case_bool_decide as E; cbn [andb negb]; [|done]. rewrite H1. cbn [get_or mbind res_bind].
    by case_bool_decide.
  Qed.

  Section row.
    Context (os : list name) (Hf : fronts os) (i : nat) (row : name * gset name) (Hi : L !! i = Some row).
    Local Notation one := (norris_one (take i L) row).
    Lemma gen_row_spec pre mid post :
      (omap snd (map one mid) = [] ∧
       ngen_row os exs i (length pre) (length mid) (pre ++ mid ++ post) = Ok (inl (pre ++ map fst (map one mid) ++ post))) ∨
      ∃ m1 x m2 y, mid = m1 ++ x :: m2 ∧ omap snd (map one m1) = [] ∧ one x = (x, Some y) ∧
        ngen_row os exs i (length pre) (length mid) (pre ++ mid ++ post) =
        Ok (inr (y, (length (pre ++ m1 ++ [x]), length m2, pre ++ map fst (map one m1) ++ x :: m2 ++ post ++ [y]))).
    Proof.
      destruct (lookup_parts os i row Hf Hi) as [Ho He]. revert pre.
      induction mid as [|x mid IH]; intros pre; [by left|].
      assert ((pre ++ (x :: mid) ++ post) !! length pre = Some x) as Hx by (by rewrite lookup_app_r, Nat.sub_diag).
      assert (length (take i L) = i) as Hl. { rewrite take_length. apply lookup_lt_Some in Hi. lia. }
      cbn [ngen_row length]. rewrite Hx, He. cbn [get_or mbind res_bind]. cbn [map]. unfold norris_one at 1 3.
      destruct (bool_decide (x.2 ⊆ row.2)) eqn:Es.
      - rewrite Ho. cbn [get_or mbind res_bind]. set (x' := (x.1 ∪ {[row.1]}, x.2)).
        assert (<[length pre:=x']> (pre ++ (x :: mid) ++ post) = (pre ++ [x']) ++ mid ++ post) as ->.
        { rewrite insert_app_r_alt, Nat.sub_diag by lia. cbn. by rewrite <-(assoc_L (++)). }
        specialize (IH (pre ++ [x'])). rewrite app_length in IH. cbn [length] in IH. rewrite Nat.add_1_r in IH.
        destruct IH as [[H1 H2]|(m1 & z & m2 & y & -> & H1 & H2 & H3)].
        + left. split; [exact H1|]. rewrite H2. f_equal. f_equal. by rewrite <-(assoc_L (++)).
        + right. exists (x :: m1), z, m2, y. split; [done|]. split; [cbn [map]; unfold norris_one at 1; rewrite Es; exact H1|]. split; [done|].
          rewrite H3. cbn [map fst]. unfold norris_one at 2. rewrite Es. cbn [fst]. do 3 f_equal.
          assert (length ((pre ++ [x']) ++ m1 ++ [z]) = length (pre ++ (x :: m1) ++ [z])) as -> by (rewrite !app_length; cbn [length]; rewrite ?app_length; cbn [length]; lia).
          by rewrite <-(assoc_L (++)).
      - rewrite gen_new_spec; [|done|apply lookup_lt_Some in Hi; lia]. cbn [mbind res_bind]. rewrite drop_0.
        destruct (norris_new (take i L) x.1 (x.2 ∩ row.2)) eqn:En.
        + rewrite Ho. cbn [get_or mbind res_bind]. right. exists [], x, mid, ({[row.1]} ∪ x.1, x.2 ∩ row.2).
          split; [done|]. split; [done|]. split; [unfold norris_one; by rewrite Es, En|].
          cbn [map app]. do 3 f_equal.
          assert (S (length pre) = length (pre ++ [x])) as -> by (rewrite app_length; cbn [length]; lia).
          rewrite <-(assoc_L (++)). cbn [app]. by rewrite <-(assoc_L (++)).
        + replace (pre ++ (x :: mid) ++ post) with ((pre ++ [x]) ++ mid ++ post) by (by rewrite <-(assoc_L (++))).
          specialize (IH (pre ++ [x])). rewrite app_length in IH. cbn [length] in IH. rewrite Nat.add_1_r in IH.
          destruct IH as [[H1 H2]|(m1 & z & m2 & y & -> & H1 & H2 & H3)].
          * left. split; [exact H1|]. rewrite H2. f_equal. f_equal. cbn [map fst]. by rewrite <-(assoc_L (++)).
          * right. exists (x :: m1), z, m2, y. split; [done|]. split; [cbn [map]; unfold norris_one at 1; rewrite Es, En; exact H1|]. split; [done|].
            rewrite H3. cbn [map fst]. unfold norris_one at 2. rewrite Es, En. cbn [fst]. do 3 f_equal.
            assert (length ((pre ++ [x]) ++ m1 ++ [z]) = length (pre ++ (x :: m1) ++ [z])) as -> by (rewrite !app_length; cbn [length]; rewrite ?app_length; cbn [length]; lia).
            by rewrite <-(assoc_L (++)).
    Qed.
  End row.

  (** What is still to come: in row [i], the concepts [mid] not yet looked at. *)
  Definition todo (i : nat) (row : name * gset name) (pre mid post : list fconcept) : list fconcept :=
    let r := map (norris_one (take i L) row) mid in
    omap snd r ++ (norris_rows (take (S i) L) (drop (S i) L) (pre ++ map fst r ++ post ++ omap snd r) []).2.
  (** [N'] is the length of the context when the loop was started. *)
  Context (N' : nat) (HN : length L ≤ N').
  Definition nstate (s : ngen) (rem : list fconcept) : Prop :=
    match s with
    | NgAt exs' rows i k cnt cs => exs' = exs ∧ rows + S i = N' ∧
        ∃ row pre mid post, L !! i = Some row ∧ k = length pre ∧ cnt = length mid ∧ cs = pre ++ mid ++ post ∧ cs ≠ [] ∧
          rem = todo i row pre mid post
    | NgEnd => False
    | _ => False
    end.
  Definition last_event : event fconcept := if decide (N' = length L) then Stopped else Raised IndexError.
  Lemma gen_rows_spec os rows i row pre mid post : fronts os → rows + S i = N' → L !! i = Some row → pre ++ mid ++ post ≠ [] →
    let r := ngen_rows os exs rows i (length pre) (length mid) (pre ++ mid ++ post) in
    match todo i row pre mid post with
    | [] => r = (last_event, NgEnd)
    | y :: rem => r.1 = Yielded y ∧ nstate r.2 rem
    end.
  Proof.
    intros Hf. revert i row pre mid post. induction rows as [|rows IH]; intros i row pre mid post HS Hi Hne r.
    - subst r. cbn [ngen_rows].
      destruct (gen_row_spec os Hf i row Hi pre mid post) as [[H1 ->]|(m1 & x & m2 & y & -> & H1 & H2 & ->)].
      + assert (S i = length L) as E by (apply lookup_lt_Some in Hi; lia).
        unfold todo. rewrite H1, E, drop_all. cbn [app norris_rows snd]. unfold last_event. by rewrite decide_True by lia.
      + unfold todo. rewrite map_app, omap_app, H1. cbn [map omap list_omap app snd]. rewrite H2. cbn [snd]. split; [done|].
        cbn [nstate snd]. split; [done|]. split; [done|].
        exists row, (pre ++ map fst (map (norris_one (take i L) row) m1) ++ [x]), m2, (post ++ [y]).
        split; [done|]. split; [rewrite !app_length, !map_length; lia|]. split; [done|].
        split; [by rewrite <-!(assoc_L (++))|]. split; [intros E; apply app_nil in E as [_ E]; by apply app_nil in E as [_ E]|].
        unfold todo. f_equal. f_equal. f_equal. rewrite map_app. cbn [map fst]. rewrite <-!(assoc_L (++)). cbn [app]. done.
    - subst r. cbn [ngen_rows].
      destruct (gen_row_spec os Hf i row Hi pre mid post) as [[H1 ->]|(m1 & x & m2 & y & -> & H1 & H2 & ->)].
      + set (cs' := pre ++ map fst (map (norris_one (take i L) row) mid) ++ post).
        assert (cs' ≠ []) as Hne'. { unfold cs'. intros E. apply app_nil in E as [-> E]. apply app_nil in E as [E ->]. apply Hne.
          rewrite map_map in E. by destruct mid. }
        destruct (L !! S i) as [row'|] eqn:Hi'.
        * specialize (IH (S i) row' [] cs' []). rewrite app_nil_r in IH. cbn [app length] in IH.
          assert (todo i row pre mid post = todo (S i) row' [] cs' []) as ->; [|apply IH; [lia|done|done]].
          unfold todo. rewrite H1, app_nil_r. fold cs'. rewrite (drop_S L row' (S i) Hi'). cbn [app norris_rows].
          rewrite (norris_rows_tr _ _ _ (omap snd _)). cbn [snd app]. f_equal.
          rewrite (take_S_r L (S i) row' Hi'). done.
        * apply lookup_ge_None in Hi'. assert (S i = length L) as E by (apply lookup_lt_Some in Hi; lia).
          unfold todo. rewrite H1, E, drop_all. cbn [app norris_rows snd].
          clearbody cs'. destruct cs' as [|x cs']; [done|].
          assert (ngen_row os exs (length L) 0 (length (x :: cs')) (x :: cs') = Err IndexError) as Er.
          { cbn [ngen_row length]. assert (exs !! length L = None) as -> by (apply lookup_ge_None; by rewrite map_length). done. }
          destruct rows; cbn [ngen_rows]; rewrite Er; unfold last_event; by rewrite decide_False by lia.
      + unfold todo. rewrite map_app, omap_app, H1. cbn [map omap list_omap app snd]. rewrite H2. cbn [snd]. split; [done|].
        cbn [nstate snd]. split; [done|]. split; [done|].
        exists row, (pre ++ map fst (map (norris_one (take i L) row) m1) ++ [x]), m2, (post ++ [y]).
        split; [done|]. split; [rewrite !app_length, !map_length; lia|]. split; [done|].
        split; [by rewrite <-!(assoc_L (++))|]. split; [intros E; apply app_nil in E as [_ E]; by apply app_nil in E as [_ E]|].
        unfold todo. f_equal. f_equal. f_equal. rewrite map_app. cbn [map fst]. rewrite <-!(assoc_L (++)). cbn [app]. done.
  Qed.
  (** The events of [k] calls, when [rem] is to come. *)
  Definition events (k : nat) (rem : list fconcept) : list (event fconcept) :=
    take k (map Yielded rem ++ last_event :: replicate k Stopped).
  Lemma ngen_end ws : (calls ngen_next ws NgEnd).1 = replicate (length ws) Stopped.
  Proof. induction ws as [|w ws IH]; [done|]. rewrite calls_cons. cbn [length replicate ngen_next fst snd]. by rewrite IH. Qed.
  Lemma calls_at ws s rem : (∀ c, c ∈ ws → fronts (objs c)) → nstate s rem → (calls ngen_next ws s).1 = events (length ws) rem.
  Proof.
    revert s rem. induction ws as [|c ws IH]; intros s rem Hw Hs; [done|].
    rewrite calls_cons. destruct s as [| |exs' rows i k cnt cs|]; [done|done| |done].
    destruct Hs as (-> & HS & row & pre & mid & post & Hi & -> & -> & -> & Hne & ->). cbn [ngen_next].
    pose proof (gen_rows_spec (objs c) rows i row pre mid post (Hw c (elem_of_list_here _ _)) HS Hi Hne) as H. cbn zeta in H.
    destruct (todo i row pre mid post) as [|y rem] eqn:E.
    - rewrite H. cbn [fst snd]. rewrite ngen_end. unfold events. cbn [length map app take]. f_equal. rewrite take_replicate. f_equal. lia.
    - destruct H as [H1 H2]. rewrite H1. rewrite (IH _ rem); [|intros c' Hc'; apply Hw; by right|done].
      unfold events. cbn [length map app take]. f_equal.
      change (last_event :: replicate (S (length ws)) Stopped) with ([last_event] ++ replicate (S (length ws)) Stopped).
      change (last_event :: replicate (length ws) Stopped) with ([last_event] ++ replicate (length ws) Stopped).
      rewrite !(assoc_L (++)). symmetry. apply take_more. lia.
  Qed.
End norris.

Lemma norris_calls_spec c0 cs : good c0 → (∀ c, c ∈ cs → good c ∧ objs c0 `prefix_of` objs c) →
  ∃ fin tr, norris_run c0 = Ok (fin, tr) ∧
    norris_calls (c0 :: cs) = take (S (length cs)) (map Yielded tr ++
      match cs with c1 :: _ => if decide (length (objs c1) = length (objs c0)) then Stopped else Raised IndexError | [] => Stopped end :: replicate (length cs) Stopped).
Proof.
  intros Hg Hcs. unfold norris_run. rewrite (examples_eq c0 Hg). cbn [mbind res_bind].
  set (exs := map (λ g, up (abs c0) {[g]}) (objs c0)). set (L := zip (objs c0) exs).
  assert (length exs = length (objs c0)) as Hle by apply map_length.
  assert (length (np c0) = length (objs c0)) as Hnp by apply Hg.
  assert (map snd L = exs) as HL2. { unfold L. apply (snd_zip (objs c0) exs); lia. }
  assert (map fst L = objs c0) as HL1. { unfold L. apply (fst_zip (objs c0) exs); lia. }
  assert (length L = length (objs c0)) as HLl by (by rewrite <-HL1, map_length).
  rewrite Hnp, <-HLl, firstn_all. set (top := (∅, list_to_set (atts c0)) : fconcept).
  eexists _, _. split; [f_equal; apply surjective_pairing|].
  unfold norris_calls. rewrite calls_cons. cbn [ngen_next]. rewrite (examples_eq c0 Hg). fold exs. cbn [fst snd]. fold top.
  rewrite norris_rows_tr. cbn [snd map app take]. f_equal.
  destruct cs as [|c1 cs]; [done|]. destruct (Hcs c1) as [Hg1 [k1 Hp1]]; [left|].
  assert (length (np c1) = length (objs c1)) as Hnp1 by apply Hg1.
  assert (length L ≤ length (objs c1)) as HN by (rewrite Hp1, app_length; lia).
  assert (∀ c, c ∈ c1 :: cs → fronts L (objs c)) as Hfr.
  { intros c Hc j Hj. destruct (Hcs c Hc) as [_ [k Hk]]. rewrite Hk, HL1, lookup_app_l; [done|lia]. }
  set (ev := if decide _ then _ else _). assert (ev = last_event L (length (objs c1))) as Hev by (unfold ev, last_event; by rewrite HLl).
  clearbody ev. subst ev. rewrite calls_cons. cbn [ngen_next]. rewrite Hnp1.
  destruct L as [|row L'] eqn:EL.
  { cbn [norris_rows snd map app take length]. destruct (objs c1) as [|o os] eqn:Eo; cbn [length].
    - cbn [fst snd]. rewrite ngen_end. rewrite take_replicate. cbn [fst]. f_equal. f_equal. lia.
    - cbn [map] in HL2. rewrite <-HL2. destruct (length os); cbn [ngen_rows ngen_row lookup list_lookup get_or mbind res_bind fst snd];
        cbn [fst snd]; rewrite ngen_end, take_replicate; f_equal; f_equal; lia. }
  rewrite <-EL in *. destruct (length (objs c1)) as [|rows] eqn:Er; [rewrite EL in HN; cbn in HN; lia|]. rewrite <-HL2.
  assert (L !! 0 = Some row) as H0 by (by rewrite EL).
  pose proof (gen_rows_spec L (S rows) HN (objs c1) rows 0 row [] [top] [] (Hfr c1 (elem_of_list_here _ _))) as H.
  specialize (H ltac:(lia) H0 ltac:(done)). cbn [app length] in H.
  assert (todo L 0 row [] [top] [] = (norris_rows [] L [top] []).2) as Ht.
  { unfold todo. rewrite EL. cbn [norris_rows app]. rewrite (norris_rows_tr _ _ _ (omap snd _)). cbn [snd]. done. }
  rewrite Ht in H. destruct ((norris_rows [] L [top] []).2) as [|y rem].
  - rewrite H. cbn [fst snd map app take length]. f_equal. rewrite ngen_end, take_replicate. f_equal. lia.
  - destruct H as [H1 H2]. rewrite H1. cbn [map app take length]. f_equal.
    rewrite (calls_at L (S rows) HN cs _ rem); [|intros c Hc; apply Hfr; by right|done]. unfold events.
    change (last_event L (S rows) :: replicate (S (length cs)) Stopped) with ([last_event L (S rows)] ++ replicate (S (length cs)) Stopped).
    change (last_event L (S rows) :: replicate (length cs) Stopped) with ([last_event L (S rows)] ++ replicate (length cs) Stopped).
    rewrite !(assoc_L (++)). symmetry. apply take_more. lia.
Qed.
