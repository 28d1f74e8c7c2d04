(** * Model of exploration_/exploration.py with references

    [ExplModel] treats an ExplorationDB as a value.  [ExplorationDB.__init__] keeps the
    caller's context and the caller's list of implications, without copying them
    (exploration_/exploration.py 50-60), so databases share them with each other and with
    the client.  Here contexts and lists of implications are cells, and databases refer
    to them by number. *)
From Verif Require Import Py Spec ContextModel ContextOps ClosureModel DgModel AiModel ExplModel.

(** Instance variables (lines 50-60).  [_cxt_implications] is a list of the database's own:
    it is replaced, never changed in place (lines 31, 43), and handed out as a copy (lines
    135-136). *)
Record sdb := SDB { sd_cxt : nat; sd_imps : nat; sd_cond : gset name → bool; sd_open : list fimp }.
(** The contexts of the client, its lists of implications, its databases.  With each context
    goes a flag: a computation of a basis on it has raised ([bjam] in [ExplModel]). *)
Record share := Share { sh_cxts : list (context * bool); sh_lists : list (list fimp); sh_dbs : list sdb }.

(** What a database looks like at the moment. *)
Definition db_view (w : share) (k : nat) : option edb :=
  b ← sh_dbs w !! k;
  p ← sh_cxts w !! sd_cxt b;
  L ← sh_lists w !! sd_imps b;
  Some (EDB p.1 L (sd_cond b) (sd_open b) p.2).

(** The order of iteration over sets in [lin_closure]. *)
Definition orders : Type := gset name → list fimp → nat → gset name → list name.
(** What the client can do: make a context; make a list; [ExplorationDB(x, j, cond)]; call a
    method of a database; call a mutator of a context; [append] to and [remove] from a list. *)
Inductive scmd :=
  | SCxt (c : context)
  | SList (L : list fimp)
  | SNew (ords : orders) (x j : nat) (cond : gset name → bool)
  | SCall (k : nat) (ords : orders) (o : dop)
  | SMut (x : nat) (o : op)
  | SAppend (j : nat) (i : fimp)
  | SRemove (j : nat) (i : fimp).

(** Lines 50-60. *)
Definition s_new (w : share) (ords : orders) (x j : nat) (cond : gset name → bool) : share * res () :=
  match sh_cxts w !! x, sh_lists w !! j with
  | Some (c, false), Some L =>
      match compute_dg_basis c ords (Some L) cond with
      | Ok R => (Share (sh_cxts w) (sh_lists w) (sh_dbs w ++ [SDB x j cond R]), Ok tt)
      | Err e => (Share (<[x := (c, true)]> (sh_cxts w)) (sh_lists w) (sh_dbs w), Err e)
      end
  | Some (_, true), Some _ => (w, Err Unmodelled)
  | _, _ => (w, Err UnboundLocalError)
  end.
(** Lines 68-133: the methods change the context and the list in place. *)
Definition s_call (w : share) (k : nat) (ords : orders) (o : dop) : share * res () :=
  match sh_dbs w !! k, db_view w k with
  | Some b, Some d =>
      let r := dstep ords o d in
      (Share (<[sd_cxt b := (dcxt r.1, djam r.1)]> (sh_cxts w)) (<[sd_imps b := dimps r.1]> (sh_lists w))
             (<[k := SDB (sd_cxt b) (sd_imps b) (sd_cond b) (dopen r.1)]> (sh_dbs w)), r.2)
  | _, _ => (w, Err UnboundLocalError)
  end.
Definition s_cmd (w : share) (c : scmd) : share * res () :=
  match c with
  | SCxt c => (Share (sh_cxts w ++ [(c, false)]) (sh_lists w) (sh_dbs w), Ok tt)
  | SList L => (Share (sh_cxts w) (sh_lists w ++ [L]) (sh_dbs w), Ok tt)
  | SNew ords x j cond => s_new w ords x j cond
  | SCall k ords o => s_call w k ords o
  | SMut x o =>
      match sh_cxts w !! x with
      | Some (c, false) => (Share (<[x := ((step c o).1, false)]> (sh_cxts w)) (sh_lists w) (sh_dbs w), (step c o).2)
      | Some (_, true) => (w, Err Unmodelled)
      | None => (w, Err UnboundLocalError)
      end
  | SAppend j i =>
      match sh_lists w !! j with
      | Some L => (Share (sh_cxts w) (<[j := L ++ [i]]> (sh_lists w)) (sh_dbs w), Ok tt)
      | None => (w, Err UnboundLocalError)
      end
  | SRemove j i =>
      match sh_lists w !! j with
      | Some L => match remove_imp i L with
                  | Ok L' => (Share (sh_cxts w) (<[j := L']> (sh_lists w)) (sh_dbs w), Ok tt)
                  | Err e => (w, Err e)
                  end
      | None => (w, Err UnboundLocalError)
      end
  end.
Fixpoint s_run (w : share) (p : list scmd) : share * list (res ()) :=
  match p with
  | [] => (w, [])
  | c :: p' => let '(w1, r) := s_cmd w c in let '(w2, rs) := s_run w1 p' in (w2, r :: rs)
  end.
