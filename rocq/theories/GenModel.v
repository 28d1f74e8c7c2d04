(** * Model of suspended generators: dg_basis.py 99-150, norris.py 51-83, factors.py
    83-110, 198-247 and patterns.py 88-93, 165-169

    A generator function runs only inside [next()].  Between two calls its local
    variables are kept and the caller may change the context, which the generator
    then reads as it is.  A state is what is kept between two calls. *)
From Coq Require Import QArith Qcanon.
From Verif Require Import Py Spec ContextModel ClosureModel DgModel LatticeModel FilterModel FactorModel PatternModel.

(** What a call of [next()] does: return a value, raise StopIteration because the
    function has returned, or pass on an exception of its body. *)
Inductive event (A : Type) :=
  | Yielded (x : A)
  | Stopped
  | Raised (e : exn).
Arguments Yielded {A} x.
Arguments Stopped {A}.
Arguments Raised {A} e.

(** The values returned by a sequence of calls. *)
Definition values {A} (evs : list (event A)) : list A :=
  omap (fun e => match e with Yielded x => Some x | _ => None end) evs.

(** A sequence of calls; call number [k] sees the world [ws !! k]. *)
Fixpoint calls {W S A} (next : W → S → event A * S) (ws : list W) (s : S) : list (event A) * S :=
  match ws with
  | [] => ([], s)
  | w :: ws' => let '(e, s1) := next w s in
                let '(es, s2) := calls next ws' s1 in (e :: es, s2)
  end.

(** ** generalized_dg_basis_iter (dg_basis.py 114-150) *)
(** Not started; suspended at line 132 with these local variables; finished. *)
Inductive dgen :=
  | DgNew
  | DgAt (R : list fimp) (a ac : gset name) (i : nat)
  | DgEnd.
Section dg.
  (** [ms] is the list of attributes and [L0] the background, as they are during the
      call.  The yielded implication is also in [relative_basis]: the caller does not
      change it. *)
  Context (ms : list name) (close : closer) (L0 : option (list fimp)) (cond : gset name → bool).

  (** Lines 134-149, then [loop], the [while] loop from line 128. *)
  Definition dgen_rest (loop : list fimp → gset name → nat → event fimp * dgen)
      (R : list fimp) (a ac : gset name) (i : nat) : event fimp * dgen :=
    let next a1 i1 :=
      match dg_inner ms close L0 R a1 i1 with
      | Err e => (Raised e, DgEnd)
      | Ok (a2, oj) => loop R a2 (default i1 oj)
      end in
    if bool_decide ((ac ∖ a) ∩ pre ms i ≠ ∅) then next (a ∖ suf ms i) i
    else if (size ac =? length ms)%nat then (Stopped, DgEnd)
    else next ac (length ms).
  (** Lines 128-149 until the next [yield]; [aclose] as in DgModel.v, for the
      context as it is during this call. *)
  Fixpoint dgen_loop (aclose : gset name → res (gset name)) (fuel : nat) (R : list fimp) (a : gset name) (i : nat)
    : event fimp * dgen :=
    if (size a <? length ms)%nat then
      match fuel with
      | O => (Raised OutOfFuel, DgEnd)
      | S fuel' =>
          match aclose a with
          | Err e => (Raised e, DgEnd)
          | Ok ac =>
              if bool_decide (a ≠ ac) && cond a then (Yielded (a, ac), DgAt R a ac i)
              else dgen_rest (dgen_loop aclose fuel') R a ac i
          end
      end
    else (Stopped, DgEnd).
  (** One call of [next()]; lines 124-126 are run by the first one, line 133 by the
      call after the [yield]. *)
  Definition dgen_next (aclose : gset name → res (gset name)) (s : dgen) : event fimp * dgen :=
    match s with
    | DgNew => match close ∅ L0 with
               | Err e => (Raised e, DgEnd)
               | Ok a => dgen_loop aclose (2 ^ length ms) [] a (length ms)
               end
    | DgAt R a ac i => dgen_rest (dgen_loop aclose (2 ^ length ms)) (R ++ [(a, ac)]) a ac i
    | DgEnd => (Stopped, DgEnd)
    end.
End dg.
(** Lines 99-112: calls of [next()] on [dg_basis_iter_simple(cxt, imp_basis=..., cond=cond)]; [ms]
    is [cxt.attributes] when the generator is made, [ws] are the lists [imp_basis] and
    the states of [cxt] at the calls. *)
Definition dg_iter_calls (ms : list name) (cond : gset name → bool) (ws : list (list fimp * context)) : list (event fimp) :=
  (calls (fun w => dgen_next ms simple_close (Some w.1) cond (cxt_aclose w.2)) ws DgNew).1.
(** The same when the list [cxt.attributes] itself is changed between the calls, which
    [delete_attribute], [delete_attributes] and [rename_attribute] do (context.py 414,
    422, 430) while it is still the list of the context; [w.1.1] is the list. *)
Definition dg_iter_live (cond : gset name → bool) (ws : list (list name * list fimp * context)) : list (event fimp) :=
  (calls (fun w => dgen_next w.1.1 simple_close (Some w.1.2) cond (cxt_aclose w.2)) ws DgNew).1.
(** context.py 287-290, 292-297: [attribute_implications_iter]; the memo wrappers of
    [basis_computation] are gone when the generator is first resumed. *)
Definition attribute_implications_iter_calls (ms : list name) (cs : list context) : list (event fimp) :=
  dg_iter_calls ms (fun _ => true) (map (pair []) cs).

(** ** iterative_norris (norris.py 51-83) *)
(** Suspended at line 64 with the list [examples]; at line 82, the concept yielded
    already appended to [cs] (line 83): [rows] rows are left after row [i], and [cnt] concepts of
    [cs_for_loop] from position [k] on. *)
Inductive ngen :=
  | NgNew
  | NgTop (exs : list (gset name)) (top : fconcept)
  | NgAt (exs : list (gset name)) (rows i k cnt : nat) (cs : list fconcept)
  | NgEnd.
(** Lines 74-78, for [j], [j + 1], ...: [n] numbers. *)
Fixpoint ngen_new (os : list name) (exs : list (gset name)) (A N : gset name) (j n : nat) : res bool :=
  match n with
  | O => Ok true
  | S n' =>
      e ← get_or IndexError (exs !! j);
      if bool_decide (N ⊆ e) then
        o ← get_or IndexError (os !! j);
        if bool_decide (o ∉ A) then Ok false else ngen_new os exs A N (S j) n'
      else ngen_new os exs A N (S j) n'
  end.
(** Lines 68-83: the rest of the pass over row [i]; [os] is [context.objects] during
    this call.  Result: the list [cs] after the pass, or a [yield]. *)
Fixpoint ngen_row (os : list name) (exs : list (gset name)) (i k cnt : nat) (cs : list fconcept)
  : res (list fconcept + fconcept * (nat * nat * list fconcept)) :=
  match cnt with
  | O => Ok (inl cs)
  | S cnt' =>
      x ← get_or IndexError (cs !! k);
      e ← get_or IndexError (exs !! i);
      if bool_decide (x.2 ⊆ e) then
        o ← get_or IndexError (os !! i);
        ngen_row os exs i (S k) cnt' (<[k := (x.1 ∪ {[o]}, x.2)]> cs)
      else
        let N := x.2 ∩ e in
        b ← ngen_new os exs x.1 N 0 i;
        if b : bool then
          o ← get_or IndexError (os !! i);
          let y := ({[o]} ∪ x.1, N) in Ok (inr (y, (S k, cnt', cs ++ [y])))
        else ngen_row os exs i (S k) cnt' cs
  end.
(** Lines 66-83 from the middle of row [i] on. *)
Fixpoint ngen_rows (os : list name) (exs : list (gset name)) (rows i k cnt : nat) (cs : list fconcept) : event fconcept * ngen :=
  match ngen_row os exs i k cnt cs with
  | Err e => (Raised e, NgEnd)
  | Ok (inr (y, (k', cnt', cs'))) => (Yielded y, NgAt exs rows i k' cnt' cs')
  | Ok (inl cs') =>
      match rows with
      | O => (Stopped, NgEnd)
      | S rows' => ngen_rows os exs rows' (S i) 0 (length cs') cs'
      end
  end.
(** Line 66 evaluates [len(context)] (context.py 655-656) in the second call. *)
Definition ngen_next (c : context) (s : ngen) : event fconcept * ngen :=
  match s with
  | NgNew => match examples c with
             | Err e => (Raised e, NgEnd)
             | Ok exs => let top := (∅, list_to_set (atts c)) in (Yielded top, NgTop exs top)
             end
  | NgTop exs top => match length (np c) with
                     | O => (Stopped, NgEnd)
                     | S rows => ngen_rows (objs c) exs rows 0 0 1 [top]
                     end
  | NgAt exs rows i k cnt cs => ngen_rows (objs c) exs rows i k cnt cs
  | NgEnd => (Stopped, NgEnd)
  end.
(** Calls of [next()] on [iterative_norris(context)], and of
    [context.iterate_concepts()] (context.py 278-279): the values as they are when returned. *)
Definition norris_calls (cs : list context) : list (event fconcept) := (calls ngen_next cs NgNew).1.

(** ** algorithm2 (factors.py 83-110) *)
(** Suspended at line 110 after [k] values; [n] is [len_initial]. *)
Inductive agen :=
  | AgNew
  | AgAt (k n : nat) (U : gset (name * name))
  | AgEnd.
(** Lines 87-110 until the [yield]. *)
Definition agen_loop (ord : nat → nat → gset name → list name) (fid : Qc) (c : context) (k n : nat) (U : gset (name * name))
  : event (fconcept * Qc) * agen :=
  if decide (n = 0) then (Raised ZeroDivisionError, AgEnd)
  else if qltb (qdiv (Z.of_nat n - Z.of_nat (size U)) (Z.of_nat n)) fid then
    match alg2_inner c ord (S (length (atts c))) k 0 U ∅ 0 ∅ ∅ with
    | Err e => (Raised e, AgEnd)
    | Ok (rem, C, D) =>
        if decide (rem = ∅) then (Raised AssertionError, AgEnd)
        else (Yielded ((C, D), qdiv (Z.of_nat (size rem)) (Z.of_nat n)), AgAt (S k) n (U ∖ rem))
    end
  else (Stopped, AgEnd).
Definition agen_next (ord : nat → nat → gset name → list name) (fid : Qc) (c : context) (s : agen) : event (fconcept * Qc) * agen :=
  match s with
  | AgNew => match get_object_attribute_pairs c with
             | Err e => (Raised e, AgEnd)
             | Ok l => let U := list_to_set l : gset (name * name) in agen_loop ord fid c 0 (size U) U
             end
  | AgAt k n U => agen_loop ord fid c k n U
  | AgEnd => (Stopped, AgEnd)
  end.
Definition algorithm2_calls (ord : nat → nat → gset name → list name) (fid : Qc) (cs : list context) : list (event (fconcept * Qc)) :=
  (calls (agen_next ord fid) cs AgNew).1.

(** ** algorithm2_w_condition (factors.py 198-247) *)
(** Suspended at line 244 after [k] passes of the loop of line 204; [removed] is [removed_atts]. *)
Inductive wgen :=
  | WgNew
  | WgAt (k n : nat) (U : gset (name * name)) (removed : gset name)
  | WgEnd.
Section wgen.
  Context (ord : nat → nat → gset name → list name) (allow : bool) (mn : Z) (ge : bool) (fid : Qc).
  (** Lines 204-245 until the [yield]; each pass that ends with line 228 removes pairs from [U]. *)
  Fixpoint wgen_loop (fuel : nat) (c : context) (k n : nat) (U : gset (name * name)) (removed : gset name)
    : event (fconcept * Qc * Qc) * wgen :=
    match fuel with
    | 0 => (Raised OutOfFuel, WgEnd)
    | S fuel' =>
        if qltb (qdiv (Z.of_nat n - Z.of_nat (size U)) (Z.of_nat n)) fid then
          let avail := (set_map snd U : gset name) ∖ removed in
          match wcond_inner c ord allow mn ge (S (S (length (atts c)))) k 0 U avail ∅ (list_to_set (objs c)) 0 ∅ with
          | Err e => (Raised e, WgEnd)
          | Ok WReturn => (Stopped, WgEnd)
          | Ok (WRestart Dj) => wgen_loop fuel' c (S k) n (filter (fun p => p.2 ∉ Dj) U) (removed ∪ Dj)
          | Ok (WYield C D rem) =>
              let U' := U ∖ rem in
              (Yielded ((C, D), qdiv (Z.of_nat (size rem)) (Z.of_nat n), qdiv (Z.of_nat n - Z.of_nat (size U')) (Z.of_nat n)),
               WgAt (S k) n U' removed)
          end
        else (Stopped, WgEnd)
    end.
  Definition wgen_next (c : context) (s : wgen) : event (fconcept * Qc * Qc) * wgen :=
    match s with
    | WgNew => match get_object_attribute_pairs c with
               | Err e => (Raised e, WgEnd)
               | Ok l => let U := list_to_set l : gset (name * name) in
                         if decide (size U = 0) then (Stopped, WgEnd) else wgen_loop (S (size U)) c 0 (size U) U ∅
               end
    | WgAt k n U removed => wgen_loop (S (size U)) c k n U removed
    | WgEnd => (Stopped, WgEnd)
    end.
  Definition w_condition_calls (cs : list context) : list (event (fconcept * Qc * Qc)) := (calls wgen_next cs WgNew).1.
End wgen.

(** ** iterate_unexplained_examples (patterns.py 165-169) *)
(** Suspended at line 169; [os] are the object names not yet visited, the first of
    them with index [i].  [add_object] binds a new list of names (context.py 377-378,
    HeapModel.v), so [enumerate] goes on with the list it was given. *)
Inductive ugen :=
  | UgNew
  | UgAt (i : nat) (os : list name)
  | UgEnd.
Fixpoint ugen_loop (s : pexp) (i : nat) (os : list name) : event (name * gset name) * ugen :=
  match os with
  | [] => (Stopped, UgEnd)
  | o :: os' =>
      match get_object_intent_by_index (ppos s) i with
      | Err e => (Raised e, UgEnd)
      | Ok X => if is_explained s X then ugen_loop s (S i) os' else (Yielded (o, X), UgAt (S i) os')
      end
  end.
Definition ugen_next (s : pexp) (g : ugen) : event (name * gset name) * ugen :=
  match g with
  | UgNew => ugen_loop s 0 (objs (ppos s))
  | UgAt i os => ugen_loop s i os
  | UgEnd => (Stopped, UgEnd)
  end.
(** Calls of [next()]; [ss] are the states of the exploration at the calls. *)
Definition unexplained_calls (ss : list pexp) : list (event (name * gset name)) := (calls ugen_next ss UgNew).1.

(** ** iterate_positive_concepts (patterns.py 88-93) *)
(** Suspended at line 93 with the concepts not yet visited. *)
Inductive pgen :=
  | PgNew
  | PgAt (cs : list fconcept)
  | PgEnd.
Fixpoint pgen_loop (ord : gset name → list name) (cn : context) (cs : list fconcept) : event fconcept * pgen :=
  match cs with
  | [] => (Stopped, PgEnd)
  | x :: cs' =>
      match aclosure cn (ord x.2) with
      | Err e => (Raised e, PgEnd)
      | Ok Y => if bool_decide (Y = list_to_set (atts cn)) then (Yielded x, PgAt cs') else pgen_loop ord cn cs'
      end
  end.
Definition pgen_next (ord : gset name → list name) (s : pexp) (g : pgen) : event fconcept * pgen :=
  match g with
  | PgNew => match (c1 ← reduce_attributes (ppos s); c2 ← reduce_objects c1; norris c2) with
             | Err e => (Raised e, PgEnd)
             | Ok cs => pgen_loop ord (pneg s) cs
             end
  | PgAt cs => pgen_loop ord (pneg s) cs
  | PgEnd => (Stopped, PgEnd)
  end.
(** Calls of [next()] on [iterate_patterns_with_examples()] (patterns.py 119-120) with
    the default generator; [ss] are the states of the exploration at the calls. *)
Definition pattern_calls (ord : gset name → list name) (ss : list pexp) : list (event fconcept) := (calls (pgen_next ord) ss PgNew).1.
