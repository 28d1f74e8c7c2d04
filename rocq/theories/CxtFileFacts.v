(** * cxt files: round trip *)
From Coq Require Import Ascii.
From Verif Require Import Py PyFacts Spec SpecFacts ContextModel ContextSpec ContextOps ContextFacts ContextInit ContextFinal
  StrModel StrSpec StrFacts FileModel CxtFileModel FileSpec FileFacts.
Local Open Scope string_scope.

Lemma Ok_inj {A} (a b : A) : Ok a = Ok b → a = b.
Proof. congruence. Qed.
Lemma mapM_get {A B} (l : list A) (f : A → res B) :
  mapM (λ i, x ← get_or IndexError (l !! i); f x) (seq 0 (length l)) = mapM f l.
Proof.
  assert (∀ k pre, k = length pre → mapM (λ i, x ← get_or IndexError ((pre ++ l)%list !! i); f x) (seq k (length l)) = mapM f l) as H.
  { induction l as [|a l IH]; intros k pre ->; [done|]. cbn [length seq]. rewrite !mapM_cons.
    rewrite list_lookup_middle by done. cbn [get_or mbind res_bind].
    destruct (f a) as [y|e]; [|done]. cbn [mbind res_bind].
    rewrite <-(IH (S (length pre)) (pre ++ [a])%list).
    - by rewrite <-app_assoc.
    - rewrite app_length. cbn. lia. }
  by apply (H 0%nat []).
Qed.
Definition str_of (x : name) : res string := match x with NStr s => Ok s | NInt _ => Err TypeError end.
Lemma write_with_ok (w : name → res string) (g : name → string) c : wf c →
  (∀ x, x ∈ objs c ∨ x ∈ atts c → w x = Ok (g x)) →
  write_with w c = Ok (sconcat (map (λ x, x ++ nl) (["B"; ""; pretty (length (objs c)); pretty (length (atts c)); ""] ++
    map g (objs c) ++ map g (atts c) ++ map (λ r, join "" (map cross_char r)) (np c))%list)).
Proof.
  intros Hc Hw. unfold write_with, oname, aname, np_row.
  rewrite (mapM_get (objs c) (λ x, s ← w x; Ok (s ++ nl))), (mapM_get (atts c) (λ x, s ← w x; Ok (s ++ nl))).
  rewrite <-(wf_rows c Hc). rewrite (mapM_get (np c) (λ r, Ok (join "" (map cross_char r) ++ nl))).
  rewrite (mapM_Ok_map _ (λ x, g x ++ nl) (objs c)).
  2:{ intros x Hx. by rewrite Hw by (by left). }
  cbn [mbind res_bind].
  rewrite (mapM_Ok_map _ (λ x, g x ++ nl) (atts c)).
  2:{ intros x Hx. by rewrite Hw by (by right). }
  cbn [mbind res_bind].
  rewrite (mapM_Ok_map _ (λ r, join "" (map cross_char r) ++ nl) (np c)) by done.
  cbn [mbind res_bind]. f_equal. rewrite !map_app, !sconcat_app, !map_map.
  cbn [map]. rewrite !sconcat_cons. rewrite !app_assoc_s. done.
Qed.
Lemma read_header_ok n k f :
  read_header (("B" ++ nl)%string :: nl :: (pretty n ++ nl)%string :: (pretty k ++ nl)%string :: nl :: f)%list = Ok (Z.of_nat n, Z.of_nat k, f).
Proof.
  unfold read_header. cbn [readline]. rewrite decide_True by done. rewrite !strip_line.
  rewrite !strip_no_space by apply pretty_nat_line. rewrite !py_int_nat. done.
Qed.

Lemma readable_eval ev k x : readable ev k x → eval_name (ev k) (pystr x) = Ok x ∧ strip (pystr x) = pystr x ∧ one_line (pystr x).
Proof.
  intros [H1 H2]. split; [|done]. unfold eval_name. destruct H1 as [->|[Hx [-> | ->]]]; [done|..]; by destruct x.
Qed.
Lemma map_nl_pystr l : map (λ x, x ++ nl) (map pystr l) = map (λ x, pystr x ++ nl) l.
Proof. by rewrite map_map. Qed.
Lemma cxt_round_trip ev c s : good c →
  (∀ k x, (objs c ++ atts c)%list !! k = Some x → readable ev k x) →
  write_cxt c = Ok s → ∃ d, read_cxt ev s = Ok d ∧ good d ∧ objs d = objs c ∧ atts d = atts c ∧ np d = np c.
Proof.
  intros Hg Hn' Hs. pose proof (good_wf c Hg) as Hc.
  assert (∀ k x, (objs c ++ atts c)%list !! k = Some x → eval_name (ev k) (pystr x) = Ok x ∧ strip (pystr x) = pystr x ∧ one_line (pystr x)) as Hn.
  { intros k x Hx. by apply readable_eval, Hn'. }
  clear Hn'.
  unfold write_cxt in Hs. rewrite (write_with_ok _ pystr) in Hs by done. apply Ok_inj in Hs as <-.
  unfold read_cxt. rewrite open_lines.
  2:{ intros x Hx. apply elem_of_app in Hx as [Hx|Hx].
      - rewrite !elem_of_cons in Hx. destruct Hx as [->|[->|[->|[->|[->|Hx]]]]]; try done; try apply pretty_nat_line.
        by apply elem_of_nil in Hx.
      - rewrite app_assoc in Hx. apply elem_of_app in Hx as [Hx|Hx].
        + rewrite <-map_app in Hx. apply elem_of_list_fmap in Hx as (y & -> & Hy).
          apply elem_of_list_lookup in Hy as (i & Hi). apply (Hn i y Hi).
        + apply elem_of_list_fmap in Hx as (y & -> & Hy). apply cross_no_space. }
  cbn [snd]. rewrite !map_app, !map_nl_pystr. cbn [map app]. rewrite app_nil_l_s.
  rewrite read_header_ok. cbn [mbind res_bind]. rewrite !Nat2Z.id.
  rewrite read_names_ok.
  2:{ intros i x Hi. destruct (Hn i x) as (H1 & H2 & _); [by apply lookup_app_l_Some|]. done. }
  cbn [mbind res_bind fst snd]. rewrite read_names_ok.
  2:{ intros i x Hi. destruct (Hn (length (objs c) + i)%nat x) as (H1 & H2 & _); [|done].
      rewrite lookup_app_r by lia. by replace (length (objs c) + i - length (objs c))%nat with i by lia. }
  cbn [mbind res_bind fst snd]. rewrite map_map. rewrite <-(wf_rows c Hc).
  rewrite <-(app_nil_r (map _ (np c))), read_rows_ok. cbn [fst].
  destruct (mk_context_ok (np c) None (objs c) (atts c)) as [d Hd].
  { apply (wf_rows c Hc). }
  { intros r Hr. apply elem_of_list_lookup in Hr as (i & Hi). by apply (wf_cols c Hc i). }
  exists d. split; [done|].
  destruct (mk_context_good _ _ _ _ _ Hd) as (G1 & G2 & G3 & G4); try apply (good_distinct c Hg); done.
Qed.
Lemma write_cxt_total c : good c → ∃ s, write_cxt c = Ok s.
Proof. intros Hg. unfold write_cxt. rewrite (write_with_ok _ pystr); [eauto|apply Hg|done]. Qed.

(** ** uwrite_cxt, uread_cxt *)
Lemma uwrite_cxt_spec c : good c →
  ((∀ x, x ∈ objs c ++ atts c → is_str x = true)%list → uwrite_cxt c = write_cxt c) ∧
  ((∃ z, NInt z ∈ objs c ++ atts c)%list → uwrite_cxt c = Err TypeError).
Proof.
  intros Hg. pose proof (good_wf c Hg) as Hc. split.
  - intros H. unfold uwrite_cxt, write_cxt. rewrite !(write_with_ok _ pystr); try done.
    intros x Hx. rewrite <-elem_of_app in Hx. specialize (H x Hx). by destruct x.
  - intros (z & Hz). unfold uwrite_cxt, write_with, oname, aname.
    set (w := λ x : name, match x with NStr s => Ok s | NInt _ => Err TypeError end).
    rewrite (mapM_get (objs c) (λ x, s ← w x; Ok (s ++ nl))), (mapM_get (atts c) (λ x, s ← w x; Ok (s ++ nl))).
    assert (∀ l : list name, NInt z ∈ l → mapM (λ x, s ← w x; Ok (s ++ nl)) l = Err TypeError) as Hm.
    { intros l. induction l as [|x l IH]; [by intros ?%elem_of_nil|]. intros Hl. rewrite mapM_cons.
      destruct x as [s|y]; [|done]. cbn. rewrite IH; [done|]. by apply elem_of_cons in Hl as [?|?]. }
    apply elem_of_app in Hz as [Hz|Hz].
    + rewrite (Hm _ Hz). reflexivity.
    + destruct (mapM _ (objs c)) as [l|e] eqn:E.
      * cbn [mbind res_bind]. rewrite (Hm _ Hz). reflexivity.
      * apply mapM_Err in E as ([s|y] & _ & E); [done|]. cbn in *. congruence.
Qed.
Lemma uread_cxt_spec s c : uread_cxt s = Ok c → objs c = [] ∧ atts c = [].
Proof.
  unfold uread_cxt. destruct (read_header _) as [[[n k] f]|e] eqn:E; [|done]. cbn [mbind res_bind].
  destruct (Z.to_nat n) as [|n']; cbn [uread_names].
  2:{ by destruct (readline f). }
  cbn [mbind res_bind snd]. destruct (Z.to_nat k) as [|k']; cbn [uread_names].
  2:{ by destruct (readline f). }
  cbn. by intros [= <-].
Qed.
Lemma uread_written c s : good c → write_cxt c = Ok s → (objs c ≠ [] ∨ atts c ≠ []) →
  (∀ x, x ∈ objs c ++ atts c → one_line (pystr x))%list → uread_cxt s = Err TypeError.
Proof.
  intros Hg Hs Hne Hl. pose proof (good_wf c Hg) as Hc.
  unfold write_cxt in Hs. rewrite (write_with_ok _ pystr) in Hs by done. apply Ok_inj in Hs as <-.
  unfold uread_cxt. rewrite open_lines.
  2:{ intros x Hx. apply elem_of_app in Hx as [Hx|Hx].
      - rewrite !elem_of_cons in Hx. destruct Hx as [->|[->|[->|[->|[->|Hx]]]]]; try done; try apply pretty_nat_line.
        by apply elem_of_nil in Hx.
      - rewrite app_assoc in Hx. apply elem_of_app in Hx as [Hx|Hx].
        + rewrite <-map_app in Hx. apply elem_of_list_fmap in Hx as (y & -> & Hy). by apply Hl.
        + apply elem_of_list_fmap in Hx as (y & -> & Hy). apply cross_no_space. }
  cbn [snd]. rewrite !map_app. cbn [map app]. rewrite app_nil_l_s.
  rewrite read_header_ok. cbn [mbind res_bind]. rewrite !Nat2Z.id.
  destruct (objs c) as [|o os]; [|done]. cbn [length uread_names mbind res_bind snd].
  destruct (atts c) as [|a ats]; [|done]. by destruct Hne.
Qed.

Lemma cxt_round_trip_abs ev c : good c →
  (∀ k x, (objs c ++ atts c)%list !! k = Some x → readable ev k x) →
  ∃ s d, write_cxt c = Ok s ∧ read_cxt ev s = Ok d ∧ good d ∧ objs d = objs c ∧ atts d = atts c ∧ abs d = abs c.
Proof.
  intros Hg Hr. destruct (write_cxt_total c Hg) as [s Hs].
  destruct (cxt_round_trip ev c s Hg Hr Hs) as (d & H1 & H2 & H3 & H4 & H5). exists s, d.
  repeat (split; [done|]). unfold abs. by rewrite H3, H4, H5.
Qed.

(** ** Line ends and negative counts *)
Lemma read_cxt_ends ev s : has_ch cr s = false → read_cxt ev (with_ends crlf s) = read_cxt ev s ∧ read_cxt ev (with_ends cr1 s) = read_cxt ev s.
Proof. intros H. unfold read_cxt, open_r. by rewrite univ_crlf, univ_cr1, univ_no_cr. Qed.
Lemma read_txt_ends s : has_ch cr s = false → read_txt_with_names (with_ends crlf s) = read_txt_with_names s ∧
  read_txt_with_names (with_ends cr1 s) = read_txt_with_names s.
Proof. intros H. unfold read_txt_with_names, open_r. by rewrite univ_crlf, univ_cr1, univ_no_cr. Qed.
Lemma read_cxt_counts ev (n k : Z) ls : (n ≤ 0)%Z → (k ≤ 0)%Z → (∀ x, x ∈ ls → one_line x) →
  read_cxt ev (sconcat (map (λ x, x ++ nl) ("B" :: "" :: pretty n :: pretty k :: "" :: ls)%list)) = mk_context [] None [] [].
Proof.
  intros Hn Hk Hl. unfold read_cxt. rewrite open_lines.
  2:{ intros x. rewrite !elem_of_cons. intros [->|[->|[->|[->|[->|Hx]]]]]; try done; try apply pretty_int_line. by apply Hl. }
  cbn [snd map]. unfold read_header. cbn [readline]. rewrite decide_True by done. rewrite !strip_line.
  rewrite !strip_no_space by apply pretty_int_line. rewrite !py_int_Z. cbn [mbind res_bind].
  rewrite !Z2Nat.nonpos by done. done.
Qed.
