(** * Exploration databases that share contexts and lists (specification) *)
From Verif Require Import Py Spec ContextModel ContextSpec ContextOps ClosureModel AiModel ExplModel ExplSpec ShareModel.

(** A database all by itself: its calls one after the other, exceptions caught. *)
Fixpoint alone (l : list (orders * dop)) (d : edb) : edb * list (res ()) :=
  match l with
  | [] => (d, [])
  | (ords, o) :: l' => let '(d1, r) := dstep ords o d in let '(d2, rs) := alone l' d1 in (d2, r :: rs)
  end.
(** The calls on database [k] in a program, and their results. *)
Definition own (k : nat) (p : list scmd) : list (orders * dop) :=
  omap (fun c => match c with SCall k' ords o => if decide (k' = k) then Some (ords, o) else None | _ => None end) p.
Definition own_results (k : nat) (p : list scmd) (rs : list (res ())) : list (res ()) :=
  omap (fun q : scmd * res () => match q.1 with SCall k' _ _ => if decide (k' = k) then Some q.2 else None | _ => None end) (zip p rs).

(** A command that has nothing to do with context [x] and list [j]. *)
Definition away (x j : nat) (w : share) (c : scmd) : Prop :=
  match c with
  | SCxt _ | SList _ => True
  | SNew _ y _ _ => y ≠ x
  | SCall k _ _ => ∀ b, sh_dbs w !! k = Some b → sd_cxt b ≠ x ∧ sd_imps b ≠ j
  | SMut y _ => y ≠ x
  | SAppend i _ | SRemove i _ => i ≠ j
  end.
(** Every command of the program is a call on database [k] or has nothing to do with [x] and [j]. *)
Fixpoint separate (k x j : nat) (w : share) (p : list scmd) : Prop :=
  match p with
  | [] => True
  | c :: p' => (match c with SCall k' _ _ => k' = k | _ => False end ∨ away x j w c) ∧ separate k x j (s_cmd w c).1 p'
  end.

(** A team: databases over the same context have the same list of implications and the
    other way round; the client leaves contexts and lists of databases alone, but for
    removing implications; an implication is confirmed when [touch] leaves it open; new names
    as in [db_call]. *)
Definition team_cmd (w : share) (c : scmd) : Prop :=
  match c with
  | SCxt _ | SList _ | SRemove _ _ => True
  | SNew ords x j cond =>
      lists_sets ords ∧ cond = (λ _, true) ∧
      (∀ k b, sh_dbs w !! k = Some b → (sd_cxt b = x ↔ sd_imps b = j)) ∧
      ∀ c jam L, sh_cxts w !! x = Some (c, jam) → sh_lists w !! j = Some L →
        good c ∧ comparable (atts c) = true ∧ objs c ≠ [] ∧ within (abs c) L ∧ no_repeats L ∧ valid (abs c) L
  | SCall k ords o =>
      lists_sets ords ∧
      ∀ d, db_view w k = Some d →
        match o with DConfirm i => i ∈ dopen (dstep ords DTouch d).1 | _ => db_call d o end
  | SMut x _ => ∀ k b, sh_dbs w !! k = Some b → sd_cxt b ≠ x
  | SAppend j _ => ∀ k b, sh_dbs w !! k = Some b → sd_imps b ≠ j
  end.
Inductive team : share → Prop :=
  | team_start : team (Share [] [] [])
  | team_step w c : team w → team_cmd w c → team (s_cmd w c).1.
