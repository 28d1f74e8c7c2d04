(** * Model of attribute exploration over a partial context

    fca/algorithms/exploration_/exploration.py (ExplorationDB and AttributeExploration)
    when the context is a [PartialContext], and the loop of
    fca/algorithms/exploration_/examples/bi_unars.py.  Line numbers refer to the former
    unless another file is named. *)
From Verif Require Import Py Spec ContextModel ClosureModel DgModel ExplModel PartialModel.

(** Instance variables (lines 50-60).  The calls on a partial context leave no wrappers
    behind, so there is no counterpart of [djam]. *)
Record pdb := PDB {
  pd_cxt : pcontext;
  pd_imps : list fimp;
  pd_cond : gset name → bool;
  pd_open : list fimp }.

(** Lines 50-60. *)
Definition new_pdb (p : pcontext) (L : list fimp) (cond : gset name → bool) : res pdb :=
  l ← compute_partial_dg_basis p (Some L) cond; Ok (PDB p L cond l).

(** Lines 29-33 and 41-45: what both decorators do after the method. *)
Definition pd_refresh (d : pdb) : upd pdb () :=
  match compute_partial_dg_basis (pd_cxt d) (Some (pd_imps d)) (pd_cond d) with
  | Err e => (d, Err e)
  | Ok R => (PDB (pd_cxt d) (pd_imps d) (pd_cond d) R, Ok tt)
  end.
Definition pdecorated (r : upd pdb ()) : upd pdb () :=
  match r with (d, Err e) => (d, Err e) | (d, Ok _) => pd_refresh d end.

(** Lines 62-66 for one pair; implication.py 90-93. *)
Definition check_partial (L : list fimp) (X : gset name * gset name) : res () :=
  if forallb (fun i => is_respected_partial i X) L then Ok tt else Err IllegalContextModification.
(** Lines 77-83. *)
Definition pd_add_example (o : name) (X : gset name * gset name) (d : pdb) : upd pdb () :=
  guarded (check_partial (pd_imps d) X) d (fun d =>
    if bool_decide (o ∈ p_objs (pd_cxt d)) then (d, Err NotUniqueObjectName)
    else let r := p_add_object_with_intent (pd_cxt d) X o in (PDB r.1 (pd_imps d) (pd_cond d) (pd_open d), r.2)).

Inductive pdop :=
  | PDConfirm (i : fimp)
  | PDUnconfirm (i : fimp)
  | PDAddExample (o : name) (intent : gset name * gset name)
  | PDDeleteExample (o : name)
  | PDEditExample (o old : name) (intent : gset name * gset name)
  | PDAddAttribute (a : name) (extent : gset name)
  | PDDeleteAttribute (a : name)
  | PDTouch
  | PDEditAttribute (a old : name) (extent : gset name).
(** Lines 68-133.  A [PartialContext] has none of the methods [delete_object_by_name]
    (line 87), [get_object_intent] (lines 91, 120, 122), [add_attribute_with_extent]
    (line 105), [delete_attribute_by_name] (line 109) and [set_attribute_extent]
    (line 132).  [edit_attribute] with no objects passes the check of the empty list and
    counts the new name before it fails. *)
Definition pdstep (o : pdop) (d : pdb) : upd pdb () :=
  pdecorated
    match o with
    | PDConfirm i => (PDB (pd_cxt d) (pd_imps d ++ [i]) (pd_cond d) (pd_open d), Ok tt)
    | PDUnconfirm i => match remove_imp i (pd_imps d) with
                       | Err e => (d, Err e)
                       | Ok L => (PDB (pd_cxt d) L (pd_cond d) (pd_open d), Ok tt)
                       end
    | PDAddExample o X => pd_add_example o X d
    | PDDeleteExample _ | PDEditExample _ _ _ | PDDeleteAttribute _ => (d, Err AttributeError)
    | PDAddAttribute a _ => (d, Err (if bool_decide (a ∈ p_atts (pd_cxt d)) then NotUniqueAttributeName else AttributeError))
    | PDTouch => (d, Ok tt)
    | PDEditAttribute a _ _ =>
        (d, Err (if bool_decide (p_objs (pd_cxt d) = []) && (1 <? py_count a (p_atts (pd_cxt d)))%nat
                 then NotUniqueAttributeName else AttributeError))
    end.

(** Lines 147-150: the open implications are not computed again. *)
Definition pd_complete (d : pdb) : upd pdb () :=
  let r := p_complete (pd_imps d) (pd_cxt d) in (PDB r.1 (pd_imps d) (pd_cond d) (pd_open d), r.2).
Definition then_complete (r : upd pdb ()) : upd pdb () :=
  match r with (d, Err e) => (d, Err e) | (d, Ok _) => pd_complete d end.

(** AttributeExploration, lines 169-173. *)
Fixpoint pae_steps (l : list pdop) (d : pdb) : upd pdb () :=
  match l with
  | [] => (d, Ok tt)
  | o :: l' => match pdstep o d with
               | (d', Err e) => (d', Err e)
               | (d', Ok _) => pae_steps l' d'
               end
  end.
Definition pae_confirm (l : list fimp) (d : pdb) : upd pdb () := then_complete (pae_steps (map PDConfirm l) d).
(** Lines 175-185; [es] and [Xs] are what the expert provides. *)
Fixpoint pae_add (es : list name) (Xs : list (gset name * gset name)) (d : pdb) : upd pdb () :=
  match es with
  | [] => (d, Ok tt)
  | o :: es' =>
      match Xs with
      | [] => (d, Err IndexError)
      | X :: Xs' => match pdstep (PDAddExample o X) d with
                    | (d', Err e) => (d', Err e)
                    | (d', Ok _) => pae_add es' Xs' d'
                    end
      end
  end.
Definition pae_reject (i : fimp) (es : list name) (Xs : list (gset name * gset name)) (d : pdb) : upd pdb () :=
  match Xs with
  | [] => (d, Err IndexError)
  | X :: _ => if is_respected_partial i X then (d, Err NotCounterexample) else then_complete (pae_add es Xs d)
  end.

(** What happens in one round: the implications that are confirmed (bi_unars.py confirms
    the implication together with its mirror image), or the examples and pairs that
    [provide_counterexample] returns. *)
Inductive panswer :=
  | PValid (l : list fimp)
  | PCounter (es : list name) (Xs : list (gset name * gset name)).
(** bi_unars.py 76-83 for an arbitrary expert. *)
Fixpoint pexplore (fuel k : nat) (expert : nat → pdb → fimp → res panswer) (d : pdb) : upd pdb () :=
  match pd_open d with
  | [] => (d, Ok tt)
  | i :: _ =>
      match fuel with
      | O => (d, Err OutOfFuel)
      | S fuel' =>
          match expert k d i with
          | Err e => (d, Err e)
          | Ok a =>
              match (match a with
                     | PValid l => pae_confirm l d
                     | PCounter es Xs => pae_reject i es Xs d
                     end) with
              | (d', Err e) => (d', Err e)
              | (d', Ok _) => pexplore fuel' (S k) expert d'
              end
          end
      end
  end.
