(** * What the constructor and the operations of contexts report (C132) *)
From Coq Require Import Ascii.
From Verif Require Import Py Spec ContextModel ContextSpec ContextOps PyFacts SpecFacts ContextFacts ContextInit ContextMisc
  ContextReduce ContextEq MsgSpec MsgModel MsgFacts Properties_Context.

(** Logging does not change the result of the constructor. *)
Theorem C132_result t z os ats : (mk_context_logged t z os ats).2 = mk_context t z os ats.
Proof. exact (mk_context_logged_result t z os ats). Qed.
Print Assumptions C132_result.

(** The log: one line for each repeated attribute, then one for each repeated object, in the order of
    first occurrences, with all positions. *)
Theorem C132_log t z os ats : length t = length os → (∀ r, head t = Some r → length r = length ats) →
  no_clash os → no_clash ats →
  ∃ la lo, reports ats la ∧ reports os lo ∧
    (mk_context_logged t z os ats).1 = map (rename_note "attribute") la ++ map (rename_note "object") lo.
Proof.
  intros H1 H2 Ho Ha. exists (uniquify_log ats).2, (uniquify_log os).2.
  split; [by apply uniquify_log_reports|]. split; [by apply uniquify_log_reports|].
  rewrite mk_context_logged_spec. pose proof (init_message_spec t os ats) as H. destruct (init_message t os ats) as [s|]; [|done].
  destruct H as [H|(r & Hr & H)]; [done|]. by rewrite (H2 r Hr) in H.
Qed.
Print Assumptions C132_log.

(** Nothing is logged exactly if no name is repeated, or the sizes do not fit. *)
Theorem C132_silent t z os ats :
  (mk_context_logged t z os ats).1 = [] ↔
  (NoDup os ∧ NoDup ats) ∨ length t ≠ length os ∨ ∃ r, head t = Some r ∧ length r ≠ length ats.
Proof.
  rewrite mk_context_logged_spec. pose proof (init_message_spec t os ats) as H. destruct (init_message t os ats) as [s|]; cbn [fst].
  - split; [by right|done].
  - destruct H as [H1 H2]. split.
    + intros H. left. apply app_eq_nil in H as [Ha Ho]. apply map_eq_nil in Ha, Ho.
      destruct (NoDup_log ats) as [[_ Na]|[_ Na]]; [|done]. destruct (NoDup_log os) as [[_ No]|[_ No]]; done.
    + intros [[No Na]|[H|(r & Hr & H)]]; [|done|by rewrite (H2 r Hr) in H].
      destruct (NoDup_log ats) as [[-> _]|[Hn _]]; [|done]. destruct (NoDup_log os) as [[-> _]|[Hn _]]; done.
Qed.
Print Assumptions C132_silent.

(** The message of the exception raised for sizes that do not fit tells them: there is one exactly in
    that case, and equal messages mean the same complaint with the same two numbers. *)
Theorem C132_error t z os ats :
  ((∃ s, init_message t os ats = Some s) ↔ length t ≠ length os ∨ ∃ r, head t = Some r ∧ length r ≠ length ats) ∧
  ((∃ s, init_message t os ats = Some s) → mk_context t z os ats = Err ValueError) ∧
  (∀ t' os' ats' s, init_message t os ats = Some s → init_message t' os' ats' = Some s →
    (length t ≠ length os ∧ length t = length t' ∧ length os = length os') ∨
    (length t = length os ∧ length t' = length os' ∧ length ats = length ats' ∧
     ∃ r r', head t = Some r ∧ head t' = Some r' ∧ length r = length r' ∧ length r ≠ length ats)).
Proof.
  split; [|split].
  - pose proof (init_message_spec t os ats) as H. destruct (init_message t os ats) as [s|].
    + split; [done|]. intros _. by exists s.
    + split; [by intros [s Hs]|]. destruct H as [H1 H2]. intros [H|(r & Hr & H)]; [done|by rewrite (H2 r Hr) in H].
  - intros [s Hs]. rewrite <-mk_context_logged_result, mk_context_logged_spec, Hs. done.
  - intros t' os' ats' s. apply init_message_inj.
Qed.
Print Assumptions C132_error.

(** Every unknown name has its line in the message. *)
Theorem C132_wrong_names ord c ns : (∀ X, ord X ≡ₚ elements X) →
  match wrong_names_message ord c ns with
  | None => check_attribute_names c ns = Ok tt
  | Some s => check_attribute_names c ns = Err ValueError ∧
      ∀ a, a ∈ ns → a ∉ atts c → contains (tab ++ pystr a ++ newline) s
  end.
Proof. exact (wrong_names_spec ord c ns). Qed.
Print Assumptions C132_wrong_names.

(** The message of a MultiplicationException is the same for all contexts: the numbers it announces
    are missing. *)
Theorem C132_product_refuted : ∃ c d c' d', context_mul c d = Err MultiplicationException ∧
  context_mul c' d' = Err MultiplicationException ∧ length (atts c) ≠ length (atts c') ∧ length (objs d) ≠ length (objs d') ∧
  is_ok (mul_message c d) = true ∧ mul_message c d = mul_message c' d'.
Proof.
  exists ex, ex, empty_cxt, (get_ok empty_cxt (mk_context [[true]] None [o1] [sa])).
  do 4 (split; [vm_compute; done|]). apply mul_message_const.
Qed.
Print Assumptions C132_product_refuted.

(** ** Cases *)
Example C132_case :
  (mk_context_logged [[true; true; false]; [false; true; true]] None [o1; o1] [sa; sb; sa]).1 =
  ["Not unique name of attribute 'a', renamed to 'a_n', n \in [0, 2]";
   "Not unique name of object '1', renamed to '1_n', n \in [0, 1]"]%string.
Proof. vm_compute. reflexivity. Qed.
Example C132_case_error :
  init_message [[true]; [true]] [o1] [sa] = Some "Number of objects (=1) and number of cross table rows(=2) must agree"%string ∧
  init_message [[true; true]] [o1] [sa] = Some "Number of attributes (=1) and number of cross table columns (=2) must agree"%string.
Proof. vm_compute. done. Qed.
(** A generated name that is in use already is reported as well, although it was not repeated. *)
Example C132_case_clash : map fst (uniquify_log [sa; sa; NStr "a_1"]).2 = [sa; NStr "a_1"].
Proof. vm_compute. reflexivity. Qed.
Example C132_case_wrong :
  wrong_names_message elements ex [sb; NStr "z"] = Some ("Wrong attribute names:" ++ newline ++ tab ++ "z" ++ newline)%string.
Proof. vm_compute. reflexivity. Qed.
