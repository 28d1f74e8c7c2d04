(** * Model of the three attribute exploration modules

    fca/algorithms/exploration.py, fca/algorithms/exploration_/exploration.py and
    fca/algorithms/exploration2/exploration.py.  The intents and extents given to
    them are Python sets. *)
From Verif Require Import Py Spec ContextModel ClosureModel DgModel AiModel.

(** Exceptions defined by the three modules. *)
Definition BasisConflict := UserException 1.
Definition NotCounterExamplePremise := UserException 2.
Definition NotCounterExampleConclusion := UserException 3.
Definition NotCounterexample := UserException 4.
Definition IllegalContextModification := UserException 5.
Definition NotUniqueObjectName := UserException 6.
Definition NotUniqueAttributeName := UserException 7.
Definition FalseCounterexample := UserException 8.

(** Position denoted by the Python list index [k]. *)
Definition py_pos (n : nat) (k : Z) : option nat :=
  if (0 <=? k)%Z then (if (k <? Z.of_nat n)%Z then Some (Z.to_nat k) else None)
  else if (0 <=? k + Z.of_nat n)%Z then Some (Z.to_nat (k + Z.of_nat n)) else None.

(** ** exploration.py: BasicExploration *)

(** Instance variables (lines 49-53).  [bjam] records that a basis computation on
    [context] has raised; the decorator of context.py 97-110 then leaves its
    wrappers behind, and what the object does afterwards is [Unmodelled]. *)
Record bexp := BExp {
  bcxt : context;
  battr : list fimp;
  bobj : list fimp;
  bcattr : list fimp;
  bcobj : list fimp;
  bjam : bool }.

(** The implications not equal to a confirmed one (lines 96-98, 104-106). *)
Definition unconfirmed (confirmed l : list fimp) : list fimp :=
  List.filter (fun i => negb (existsb (imp_eqb i) confirmed)) l.

(** Lines 86-87, 101-102: the basis of the transposed context. *)
Definition object_basis (so : nat → list pre → list pre) (c : context) : res (list fimp) :=
  t ← transpose c; compute_canonical_basis so t.

(** Lines 55-59 and 84-89; [sa] and [so] are the orders [list.sort] makes in the
    two basis computations.  [copy.deepcopy(initial_cxt)] is context.py 263-266. *)
Definition new_exploration (sa so : nat → list pre → list pre) (c0 : context) : res bexp :=
  c ← mk_context (np c0) (npz c0) (objs c0) (atts c0);
  l ← compute_canonical_basis sa c;
  l' ← object_basis so c;
  Ok (BExp c l l' [] [] false).

(** Lines 92-106. *)
Definition recompute_basis (sa so : nat → list pre → list pre) (s : bexp) : upd bexp () :=
  match compute_canonical_basis sa (bcxt s) with
  | Err e => (BExp (bcxt s) (battr s) (bobj s) (bcattr s) (bcobj s) true, Err e)
  | Ok l =>
      let s1 := BExp (bcxt s) (unconfirmed (bcattr s) l) (bobj s) (bcattr s) (bcobj s) (bjam s) in
      match object_basis so (bcxt s) with
      | Err e => (s1, Err e)
      | Ok l' => (BExp (bcxt s1) (battr s1) (unconfirmed (bcobj s) l') (bcattr s1) (bcobj s1) (bjam s1), Ok tt)
      end
  end.

(** Mutate the context, then recompute. *)
Definition mutate_recompute sa so (f : context → upd context ()) (s : bexp) : upd bexp () :=
  match f (bcxt s) with
  | (c, Err e) => (BExp c (battr s) (bobj s) (bcattr s) (bcobj s) (bjam s), Err e)
  | (c, Ok _) => recompute_basis sa so (BExp c (battr s) (bobj s) (bcattr s) (bcobj s) (bjam s))
  end.

(** Lines 108-111 and 113-116. *)
Definition confirm_attribute_implication (k : Z) (s : bexp) : upd bexp () :=
  match py_pos (length (battr s)) k with
  | None => (s, Err IndexError)
  | Some p => (BExp (bcxt s) (delete p (battr s)) (bobj s)
                    (bcattr s ++ option_list (battr s !! p)) (bcobj s) (bjam s), Ok tt)
  end.
Definition confirm_object_implication (k : Z) (s : bexp) : upd bexp () :=
  match py_pos (length (bobj s)) k with
  | None => (s, Err IndexError)
  | Some p => (BExp (bcxt s) (battr s) (delete p (bobj s)) (bcattr s)
                    (bcobj s ++ option_list (bobj s !! p)) (bjam s), Ok tt)
  end.

(** Lines 164-176 and 178-190. *)
Definition conflict_free (confirmed : list fimp) (X : gset name) : bool :=
  forallb (fun i => negb (bool_decide (i.1 ∩ X = i.1)) || bool_decide (conclusion i ∩ X = conclusion i)) confirmed.

(** Lines 119-134 and 142-157: the checks before the context is changed. *)
Definition counter_check (l : list fimp) (confirmed : list fimp) (X : gset name) (k : Z) : res () :=
  i ← get_or IndexError (p ← py_pos (length l) k; l !! p);
  if bool_decide (i.1 ∩ X ≠ i.1) then Err NotCounterExamplePremise
  else if bool_decide (conclusion i ∩ X = conclusion i) then Err NotCounterExampleConclusion
  else if conflict_free confirmed X then Ok tt else Err BasisConflict.

(** The public methods. *)
Inductive bop :=
  | BConfirmAttr (k : Z)
  | BConfirmObj (k : Z)
  | BCounterAttr (o : name) (intent : gset name) (k : Z)
  | BCounterObj (a : name) (extent : gset name) (k : Z)
  | BAddObject (intent : gset name) (o : name)
  | BAddAttribute (extent : gset name) (a : name)
  | BEditAttribute (extent : gset name) (a : name)
  | BEditObject (intent : gset name) (o : name).

Definition guarded {S : Type} (chk : res ()) (s : S) (f : S → upd S ()) : upd S () :=
  match chk with Err e => (s, Err e) | Ok _ => f s end.
Definition conflict_check (confirmed : list fimp) (X : gset name) : res () :=
  if conflict_free confirmed X then Ok tt else Err BasisConflict.

(** Lines 108-162 and 192-218. *)
Definition bstep sa so (o : bop) (s : bexp) : upd bexp () :=
  if bjam s then (s, Err Unmodelled) else
  match o with
  | BConfirmAttr k => confirm_attribute_implication k s
  | BConfirmObj k => confirm_object_implication k s
  | BCounterAttr o X k =>
      guarded (counter_check (battr s) (bcattr s) X k) s
        (mutate_recompute sa so (fun c => add_object_with_intent c X o))
  | BCounterObj a X k =>
      guarded (counter_check (bobj s) (bcobj s) X k) s
        (mutate_recompute sa so (fun c => add_attribute_with_extent c X a))
  | BAddObject X o =>
      guarded (conflict_check (bcattr s) X) s
        (mutate_recompute sa so (fun c => add_object_with_intent c X o))
  | BAddAttribute X a =>
      guarded (conflict_check (bcobj s) X) s
        (mutate_recompute sa so (fun c => add_attribute_with_extent c X a))
  | BEditAttribute X a =>
      guarded (conflict_check (bcobj s) X) s
        (mutate_recompute sa so (fun c => set_attribute_extent c (elements X) a))
  | BEditObject X o =>
      guarded (conflict_check (bcattr s) X) s
        (mutate_recompute sa so (fun c => set_object_intent c (elements X) o))
  end.

(** ** exploration_/exploration.py: ExplorationDB and AttributeExploration *)

(** Instance variables (lines 50-60).  The database keeps the caller's context and
    list of implications (no copy); here nobody else modifies them (see [ShareModel]).  [djam] as [bjam]. *)
Record edb := EDB {
  dcxt : context;
  dimps : list fimp;
  dcond : gset name → bool;
  dopen : list fimp;
  djam : bool }.

(** Lines 50-60.  [ords]: the orders of iteration over sets in [lin_closure]. *)
Definition new_db ords (c : context) (imps : list fimp) (cond : gset name → bool) : res edb :=
  l ← compute_dg_basis c ords (Some imps) cond; Ok (EDB c imps cond l false).

Definition with_cxt (d : edb) (c : context) : edb := EDB c (dimps d) (dcond d) (dopen d) (djam d).
Definition with_imps (d : edb) (L : list fimp) : edb := EDB (dcxt d) L (dcond d) (dopen d) (djam d).

(** Lines 29-33 and 41-45: what both decorators do after the method. *)
Definition db_refresh ords (d : edb) : upd edb () :=
  match compute_dg_basis (dcxt d) ords (Some (dimps d)) (dcond d) with
  | Err e => (EDB (dcxt d) (dimps d) (dcond d) (dopen d) true, Err e)
  | Ok R => (EDB (dcxt d) (dimps d) (dcond d) R (djam d), Ok tt)
  end.
Definition decorated ords (r : upd edb ()) : upd edb () :=
  match r with (d, Err e) => (d, Err e) | (d, Ok _) => db_refresh ords d end.
Definition on_cxt (d : edb) (r : upd context ()) : upd edb () := (with_cxt d r.1, r.2).

(** Lines 62-66 for one set. *)
Definition check_intent (L : list fimp) (X : gset name) : res () :=
  if forallb (fun i => is_respected i X) L then Ok tt else Err IllegalContextModification.

(** Lines 77-83. *)
Definition db_add_example (o : name) (X : gset name) (d : edb) : upd edb () :=
  guarded (check_intent (dimps d) X) d (fun d =>
    if bool_decide (o ∈ objs (dcxt d)) then (d, Err NotUniqueObjectName)
    else on_cxt d (add_object_with_intent (dcxt d) X o)).
(** Lines 89-99: the intent is changed before the new name is checked. *)
Definition db_edit_example (o old : name) (X : gset name) (d : edb) : upd edb () :=
  match get_object_intent (dcxt d) old with
  | Err e => (d, Err e)
  | Ok Y =>
      let r := if bool_decide (X ≠ Y)
               then guarded (check_intent (dimps d) X) d (fun d => on_cxt d (set_object_intent (dcxt d) (elements X) old))
               else (d, Ok tt) in
      match r with
      | (d1, Err e) => (d1, Err e)
      | (d1, Ok _) =>
          if bool_decide (old ≠ o) then
            if bool_decide (o ∈ objs (dcxt d1)) then (d1, Err NotUniqueObjectName)
            else on_cxt d1 (rename_object (dcxt d1) old o)
          else (d1, Ok tt)
      end
  end.
(** Lines 101-105. *)
Definition db_add_attribute (a : name) (X : gset name) (d : edb) : upd edb () :=
  if bool_decide (a ∈ atts (dcxt d)) then (d, Err NotUniqueAttributeName)
  else on_cxt d (add_attribute_with_extent (dcxt d) X a).
(** Lines 115-133.  [set.add] and [set.discard] return [None], so [intents] is a
    list of [None]; [is_respected(None)] raises TypeError (implication.py 93-95). *)
Definition db_edit_attribute (a old : name) (X : gset name) (d : edb) : upd edb () :=
  match mapM (get_object_intent (dcxt d)) (objs (dcxt d)) with
  | Err e => (d, Err e)
  | Ok _ =>
      if negb (bool_decide (objs (dcxt d) = [])) && negb (bool_decide (dimps d = [])) then (d, Err TypeError)
      else if (1 <? py_count a (atts (dcxt d)))%nat then (d, Err NotUniqueAttributeName)
      else match set_attribute_extent (dcxt d) (elements X) old with
           | (c, Err e) => (with_cxt d c, Err e)
           | (c, Ok _) => on_cxt (with_cxt d c) (rename_attribute c old a)
           end
  end.

Inductive dop :=
  | DConfirm (i : fimp)
  | DUnconfirm (i : fimp)
  | DAddExample (o : name) (intent : gset name)
  | DDeleteExample (o : name)
  | DEditExample (o old : name) (intent : gset name)
  | DAddAttribute (a : name) (extent : gset name)
  | DDeleteAttribute (a : name)
  | DTouch
  | DEditAttribute (a old : name) (extent : gset name).
(** Lines 68-133.  A [Context] has no methods [delete_object_by_name] (line 87)
    and [delete_attribute_by_name] (line 109). *)
Definition dstep ords (o : dop) (d : edb) : upd edb () :=
  if djam d then (d, Err Unmodelled) else
  decorated ords
    match o with
    | DConfirm i => (with_imps d (dimps d ++ [i]), Ok tt)
    | DUnconfirm i => match remove_imp i (dimps d) with
                      | Err e => (d, Err e)
                      | Ok L => (with_imps d L, Ok tt)
                      end
    | DAddExample o X => db_add_example o X d
    | DDeleteExample _ => (d, Err AttributeError)
    | DEditExample o old X => db_edit_example o old X d
    | DAddAttribute a X => db_add_attribute a X d
    | DDeleteAttribute _ => (d, Err AttributeError)
    | DTouch => (d, Ok tt)
    | DEditAttribute a old X => db_edit_attribute a old X d
    end.
(** A method called repeatedly, up to the first exception. *)
Fixpoint dsteps ords (l : list dop) (d : edb) : upd edb () :=
  match l with
  | [] => (d, Ok tt)
  | o :: l' => match dstep (ords 0) o d with
               | (d', Err e) => (d', Err e)
               | (d', Ok _) => dsteps (fun n => ords (S n)) l' d'
               end
  end.
(** AttributeExploration.  Lines 165-173: [db.complete()] does nothing over a
    [Context] (lines 147-150). *)
Definition ae_confirm ords (imps : list fimp) (d : edb) : upd edb () := dsteps ords (map DConfirm imps) d.
(** Lines 175-185; [examples] and [intents] are what the expert provides (a single
    example with its set stands for two lists of length one). *)
Fixpoint ae_add ords (examples : list name) (intents : list (gset name)) (d : edb) : upd edb () :=
  match examples with
  | [] => (d, Ok tt)
  | o :: es =>
      match intents with
      | [] => (d, Err IndexError)
      | X :: Xs => match dstep (ords 0) (DAddExample o X) d with
                   | (d', Err e) => (d', Err e)
                   | (d', Ok _) => ae_add (fun n => ords (S n)) es Xs d'
                   end
      end
  end.
Definition ae_reject ords (i : fimp) (examples : list name) (intents : list (gset name)) (d : edb) : upd edb () :=
  match intents with
  | [] => (d, Err IndexError)
  | X :: _ => if is_respected i X then (d, Err NotCounterexample) else ae_add ords examples intents d
  end.

(** ** exploration2/exploration.py *)

(** An [Exploration] with its sessions.  [xcxt] is the context inside the
    [ExplorationContext] that all sessions share (lines 109, 115); [xbases] holds
    the [_background_implications] of the [Basis] of each session in order of
    creation; [xcur] says whose [Basis] the [ExplorationContext] refers to (lines 37-38, 83). *)
Record xpl := Xpl {
  xcxt : context;
  xbases : list (list fimp);
  xcur : option nat }.
Definition new_xpl (c : context) : xpl := Xpl c [] None.
(** Lines 46-50. *)
Definition x_add_object (o : name) (X : gset name) (x : xpl) : upd xpl () :=
  match (p ← xcur x; xbases x !! p) with
  | None => (x, Err AttributeError)
  | Some L =>
      if forallb (fun i => is_respected i X) L
      then let r := add_object_with_intent (xcxt x) X o in (Xpl r.1 (xbases x) (xcur x), r.2)
      else (x, Err IllegalContextModification)
  end.
Inductive xop :=
  | XCreate
  | XAccept (s : nat) (i : fimp)
  | XReject (s : nat) (i : fimp) (o : name) (intent : gset name)
  | XAddObject (o : name) (intent : gset name).
(** Lines 114-115 and 80-83, 96-97, 99-103, 46-50.  A session is named by its number; the
    methods of session [s] exist only once it has been created. *)
Definition xstep (op : xop) (x : xpl) : upd xpl () :=
  match op with
  | XCreate => (Xpl (xcxt x) (xbases x ++ [[]]) (Some (length (xbases x))), Ok tt)
  | XAccept s i => match xbases x !! s with
                   | None => (x, Err NameError)
                   | Some L => (Xpl (xcxt x) (<[s := L ++ [i]]> (xbases x)) (xcur x), Ok tt)
                   end
  | XReject s i o X => match xbases x !! s with
                       | None => (x, Err NameError)
                       | Some _ => if is_respected i X then (x, Err FalseCounterexample) else x_add_object o X x
                       end
  | XAddObject o X => x_add_object o X x
  end.
Fixpoint xrun (l : list xop) (x : xpl) : xpl :=
  match l with [] => x | o :: l' => xrun l' (xstep o x).1 end.
(** Lines 93-94 and 61-62. *)
Definition x_candidates ords (s : nat) (x : xpl) : res (list fimp) :=
  match xbases x !! s with
  | None => Err NameError
  | Some L => compute_dg_basis (xcxt x) ords (Some L) (fun _ => true)
  end.
