(** * Model of the exploration loops driven by an expert

    fca/algorithms/exploration_/explorationtest.py (class GenericExpert, lines 13-30),
    fca/algorithms/exploration2/examples/numbers.py (lines 6-20 and 46-58). *)
From Verif Require Import Py Spec ContextModel ClosureModel DgModel ExplModel.

(** What an expert says about an implication: it is valid, or the examples and
    intents [provide_counterexample] returns. *)
Inductive answer :=
  | Valid
  | Counter (examples : list name) (intents : list (gset name)).

(** explorationtest.py 21-27 ([explore]) for an arbitrary expert: in round [k] the
    expert sees the database and the first open implication.  Asking twice for the
    open implications gives the same copy (exploration.py 135-136, 190-191).
    [ords k] are the set orders inside the calls of round [k]. *)
Fixpoint explore (fuel k : nat) (expert : nat → edb → fimp → res answer)
    (ords : nat → nat → gset name → list fimp → nat → gset name → list name) (d : edb) : upd edb () :=
  match dopen d with
  | [] => (d, Ok tt)
  | i :: _ =>
      match fuel with
      | O => (d, Err OutOfFuel)
      | S fuel' =>
          match expert k d i with
          | Err e => (d, Err e)
          | Ok a =>
              match (match a with
                     | Valid => ae_confirm (ords k) [i] d
                     | Counter es Xs => ae_reject (ords k) i es Xs d
                     end) with
              | (d', Err e) => (d', Err e)
              | (d', Ok _) => explore fuel' (S k) expert ords d'
              end
          end
      end
  end.

(** Lines 13-30: the expert that knows a list of implications.  [nm k X] is the string
    [str(X)] printed in round [k] (the order of printing a set is arbitrary). *)
Definition generic_expert (nm : nat → gset name → name) (E : list fimp) (k : nat) (d : edb) (i : fimp) : res answer :=
  c ← simple_closure i.1 E;
  if bool_decide (conclusion i ⊆ c) then Ok Valid
  else c' ← simple_closure i.1 E; Ok (Counter [nm k i.1] [c']).

(** numbers.py 49-58 over session [s]; the candidates are computed twice per round
    ([ords k 0] and [ords k 1]).  The answer of the person is [None] for valid, else the
    counterexample; [intent] is [get_intent] (lines 46-47). *)
Fixpoint x_explore (fuel k : nat) (person : nat → xpl → fimp → res (option name)) (intent : name → gset name)
    (ords : nat → nat → gset name → list fimp → nat → gset name → list name) (s : nat) (x : xpl) : upd xpl () :=
  match x_candidates (ords k 0) s x with
  | Err e => (x, Err e)
  | Ok [] => (x, Ok tt)
  | Ok _ =>
      match fuel with
      | O => (x, Err OutOfFuel)
      | S fuel' =>
          match (l ← x_candidates (ords k 1) s x; i ← get_or IndexError (l !! 0); a ← person k x i; Ok (i, a)) with
          | Err e => (x, Err e)
          | Ok (i, a) =>
              match xstep (match a with None => XAccept s i | Some o => XReject s i o (intent o) end) x with
              | (x', Err e) => (x', Err e)
              | (x', Ok _) => x_explore fuel' (S k) person intent ords s x'
              end
          end
      end
  end.

(** numbers.py 6-11. *)
Definition is_prime (n : Z) : bool :=
  forallb (fun m => negb (n mod m =? 0)%Z) (rev (seqZ 2 (n - 2))).
(** numbers.py 13-20; [None] when the function ends without [return]. *)
Fixpoint is_factorial_loop (n f : Z) (ms : list Z) : option bool :=
  match ms with
  | [] => None
  | m :: ms' =>
      let f' := (f * m)%Z in
      if (f' =? n)%Z then Some true else if (f' >? n)%Z then Some false else is_factorial_loop n f' ms'
  end.
Definition is_factorial (n : Z) : option bool := is_factorial_loop n 1 (seqZ 1 n).
