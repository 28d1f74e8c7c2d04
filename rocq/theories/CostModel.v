(** * The closures and Norris' algorithm with counters of the steps taken

    The same loops as in ClosureModel.v and LatticeModel.v; the counters follow the
    comments at each definition. *)
From Verif Require Import Py Spec ContextModel ClosureModel LatticeModel.

(** closure_operators.py lines 77-86: [tests] counts the evaluations of line 81
    ([imp._premise <= new_closure]), [passes] the iterations of the outer loop. *)
Fixpoint simple_loop_count (fuel : nat) (unused : list fimp) (C : gset name) (passes tests : nat) : res (gset name) * (nat * nat) :=
  match fuel with
  | O => (Err OutOfFuel, (passes, tests))
  | S fuel' =>
      let '(C', rem) := foldl simple_pass (C, []) unused in
      match rem with
      | [] => (Ok C', (S passes, tests + length unused))
      | _ => simple_loop_count fuel' (List.filter (fun i => negb (existsb (imp_eqb i) rem)) unused) C'
               (S passes) (tests + length unused)
      end
  end.
(** Lines 38-86. *)
Definition simple_closure_count (s : gset name) (imps : list fimp) : res (gset name) * (nat * nat) :=
  if forallb hashable imps then simple_loop_count (S (length imps)) imps s 0 0 else (Err TypeError, (0, 0)).

(** Lines 149-156: [pops] counts the iterations (line 150), [calls] the calls of
    [decrease_count] (line 153). *)
Fixpoint lin_loop_count (ord : nat -> gset name -> list name) (imps : list fimp) (fuel k : nat)
    (update : list name) (C : gset name) (count : list (fimp * nat)) (pops calls : nat) : res (gset name) * (nat * nat) :=
  match update with
  | [] => (Ok C, (pops, calls))
  | m :: update' =>
      match fuel with
      | O => (Err OutOfFuel, (pops, calls))
      | S fuel' =>
          let current := List.filter (fun i => bool_decide (m ∈ i.1)) imps in
          let '(count', a) := decrease_all count current in
          let add := a ∖ C in
          lin_loop_count ord imps fuel' (S k) (reverse (ord k add) ++ update') (C ∪ add) count' (S pops) (calls + length current)
      end
  end.
(** Lines 88-158. *)
Definition lin_closure_count (ord : nat -> gset name -> list name) (s : gset name) (imps : list fimp) : res (gset name) * (nat * nat) :=
  match imps with
  | [] => (Ok s, (0, 0))
  | _ =>
      if forallb hashable imps then
        let C := foldl (fun C i => if bool_decide (i.1 = ∅) then C ∪ i.2 else C) s imps in
        let count := dict_of (map (fun i => (ikey i, size i.1)) imps) in
        lin_loop_count ord imps (size (s ∪ ⋃ map snd imps)) 1 (reverse (ord 0 C)) C count 0 0
      else (Err TypeError, (0, 0))
  end.

(** fca/algorithms/norris.py lines 74-78: the iterations until the loop ends or breaks. *)
Fixpoint norris_new_count (prev : list (name * gset name)) (A N : gset name) : nat :=
  match prev with
  | [] => 0
  | p :: prev' => if bool_decide (N ⊆ p.2) && bool_decide (p.1 ∉ A) then 1 else S (norris_new_count prev' A N)
  end.
(** Lines 66-83: [visits] counts the iterations of the loop over [cs_for_loop] (line 68), [checks]
    those of the loop over the earlier objects (line 74). *)
Fixpoint norris_rows_count (prev rows : list (name * gset name)) (cs : list fconcept) (visits checks : nat)
  : list fconcept * (nat * nat) :=
  match rows with
  | [] => (cs, (visits, checks))
  | row :: rows' =>
      let r := map (norris_one prev row) cs in
      norris_rows_count (prev ++ [row]) rows' (map fst r ++ omap snd r) (visits + length cs)
        (checks + sum_list (map (fun x : fconcept =>
           if bool_decide (x.2 ⊆ row.2) then 0 else norris_new_count prev x.1 (x.2 ∩ row.2)) cs))
  end.
(** Lines 42-83. *)
Definition norris_count (c : context) : res (list fconcept * (nat * nat)) :=
  exs ← examples c;
  Ok (norris_rows_count [] (take (length (np c)) (zip (objs c) exs)) [(∅, list_to_set (atts c))] 0 0).
