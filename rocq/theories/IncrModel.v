(** * Model of what fca/algorithms/implication_covers.py prints *)
From stdpp Require Import pretty.
From Verif Require Import Py Spec ContextModel ClosureModel CoverModel.

(** Lines 17-29 with the lines printed ([print] separates its arguments by a space).  [i] is
    the local counter of line 19, [k] the number of the object for the iteration orders. *)
Fixpoint cover_rows_printed (ord : nat → nat → gset name → list name) (k : nat) (attributes : gset name)
    (intents : list (gset name)) (basis : list fimp) (i : nat) : res (list fimp) * list string :=
  match intents with
  | [] => (Ok basis, [])
  | t :: ts =>
      let i := S i in
      let l1 := ("object  " ++ pretty i)%string in
      match updated_basis (ord k) t basis attributes with
      | Err e => (Err e, [l1])
      | Ok b => let '(r, out) := cover_rows_printed ord (S k) attributes ts b i in
                (r, l1 :: (pretty (length b) ++ " implications")%string :: out)
      end
  end.
(** Lines 12-29.  The rows are read one by one between the prints; reading a row of a
    consistent context does not fail. *)
Definition compute_implication_cover_printed (c : context) (ord : nat → nat → gset name → list name) : res (list fimp) * list string :=
  match examples c with
  | Err e => (Err e, [])
  | Ok exs => cover_rows_printed ord 0 (list_to_set (atts c)) exs [(∅, list_to_set (atts c))] 0
  end.
(** Lines 31-35. *)
Fixpoint print_imps (l : list fimp) : res unit * list string :=
  match l with
  | [] => (Ok tt, ["+++"%string])
  | i :: l' => match imp_repr i with
               | Err e => (Err e, [])
               | Ok s => let '(r, out) := print_imps l' in (r, s :: out)
               end
  end.
Definition print_basis (l : list fimp) : res unit * list string :=
  let '(r, out) := print_imps l in (r, "***"%string :: out).
(** Lines 150-158 with the lines printed; line 158 prints a pair. *)
Fixpoint minimize_loop_printed (todo cover : list nat) (h : nat → fimp) (i : nat) : res (list nat * (nat → fimp)) * list string :=
  match todo with
  | [] => (Ok (cover, h), [])
  | r :: todo' =>
      let i := S i in
      let l1 := ("maximizing premise  " ++ pretty i)%string in
      match (cover' ← remove_ref h r cover; P ← simple_closure (h r).1 (map h cover'); Ok (cover', P)) with
      | Err e => (Err e, [l1])
      | Ok (cover', P) =>
          let h' := fun s => if decide (s = r) then (P, (h r).2) else h s in
          let cover'' := if bool_decide (conclusion (h' r) ⊆ (h' r).1) then cover' else cover' ++ [r] in
          let '(res, out) := minimize_loop_printed todo' cover'' h' i in
          (res, l1 :: ("(" ++ pretty (length cover'') ++ ", 'implications')")%string :: out)
      end
  end.
Definition minimize_printed (cover : list nat) (h : nat → fimp) : res (list nat * (nat → fimp)) * list string :=
  minimize_loop_printed cover cover h 0.
