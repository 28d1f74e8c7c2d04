(** * Model of fca/algorithms/implication_covers.py

    Line numbers refer to that file.  The property [conclusion] returns a new set,
    so [x.conclusion.update(...)] changes nothing.  Messages printed are in
    [IncrModel.v]. *)
From Verif Require Import Py Spec ContextModel ClosureModel.

(** Lines 38-39. *)
Definition is_redundant (i : fimp) (l : list fimp) : res bool :=
  X ← simple_closure i.1 l; Ok (bool_decide (conclusion i ⊆ X)).
(** Lines 55-56 and 59-61. *)
Definition is_subsumed_simply (i b : fimp) : bool :=
  bool_decide (b.1 ⊆ i.1) && bool_decide (conclusion i ⊆ conclusion b).
Definition is_subsumed (i b : fimp) : bool :=
  bool_decide (b.1 ⊆ i.1) && bool_decide (conclusion i ⊆ conclusion b ∪ i.1).
(** Lines 42-52.  Raising a string is a TypeError. *)
Fixpoint is_new_loop (imp : fimp) (l : list fimp) : res bool :=
  match l with
  | [] => Ok true
  | i :: l' =>
      if is_subsumed_simply imp i then Ok false
      else if is_subsumed imp i then Err TypeError
      else if is_subsumed i imp then Err TypeError
      else is_new_loop imp l'
  end.
Definition is_new (imp : fimp) (l : list fimp) : res bool :=
  if bool_decide (conclusion imp ⊆ imp.1) then Ok false else is_new_loop imp l.
(** Lines 64-81.  [snap] is the rest of the copy being iterated, [cur] the list. *)
Fixpoint rsp_loop (imp : fimp) (snap cur : list fimp) : res (bool * list fimp) :=
  match snap with
  | [] => Ok (true, cur)
  | i :: snap' =>
      if bool_decide (i.1 = imp.1) then Ok (false, cur)
      else if bool_decide (i.1 ⊆ imp.1) then
        if bool_decide (conclusion imp ⊆ conclusion i) then Ok (false, cur) else rsp_loop imp snap' cur
      else if bool_decide (imp.1 ⊆ i.1) then
        if bool_decide (conclusion i ⊆ conclusion imp)
        then cur' ← remove_imp i cur; rsp_loop imp snap' cur'
        else rsp_loop imp snap' cur
      else rsp_loop imp snap' cur
  end.
Definition remove_subsumed_plus (imp : fimp) (l : list fimp) : res (bool * list fimp) :=
  if bool_decide (conclusion imp ⊆ imp.1) then Ok (false, l) else rsp_loop imp l l.
(** Lines 84-97; [can] is [can_be_subsumed]. *)
Fixpoint rs_loop (imp : fimp) (can : bool) (snap cur : list fimp) : res (bool * list fimp) :=
  match snap with
  | [] => Ok (true, cur)
  | i :: snap' =>
      if can && bool_decide (i.1 ⊆ imp.1) then
        if bool_decide (conclusion imp ⊆ conclusion i) then Ok (false, cur) else rs_loop imp can snap' cur
      else if is_subsumed_simply i imp then cur' ← remove_imp i cur; rs_loop imp false snap' cur'
      else rs_loop imp can snap' cur
  end.
Definition remove_subsumed (imp : fimp) (l : list fimp) : res (bool * list fimp) :=
  if bool_decide (conclusion imp ⊆ imp.1) then Ok (false, l) else rs_loop imp true l l.
(** Lines 100-110. *)
Fixpoint rss_loop (imp : fimp) (can : bool) (snap cur : list fimp) : res (bool * list fimp) :=
  match snap with
  | [] => Ok (true, cur)
  | i :: snap' =>
      if can && is_subsumed_simply imp i then Ok (false, cur)
      else if is_subsumed_simply i imp then cur' ← remove_imp i cur; rss_loop imp false snap' cur'
      else rss_loop imp can snap' cur
  end.
Definition remove_subsumed_simply (imp : fimp) (l : list fimp) : res (bool * list fimp) :=
  if bool_decide (conclusion imp ⊆ imp.1) then Ok (false, l) else rss_loop imp true l l.
(** Lines 113-115: the new value of [new_valid]. *)
Definition add_smartly (imp : fimp) (new_valid valid : list fimp) : res (list fimp) :=
  b ← is_new imp valid;
  if (b : bool) then
    r ← remove_subsumed_simply imp new_valid;
    Ok (if (r.1 : bool) then r.2 ++ [imp] else r.2)
  else Ok new_valid.

(** Lines 119-125. *)
Definition still_valid (intent : gset name) (i : fimp) : bool :=
  negb (bool_decide (i.1 ⊆ intent)) || bool_decide (conclusion i ⊆ intent).
(** Lines 127-130. *)
Fixpoint cut_loop (intent : gset name) (valid invalid new_valid : list fimp) : res (list fimp) :=
  match invalid with
  | [] => Ok new_valid
  | i :: invalid' => nv ← add_smartly (i.1, conclusion i ∩ intent) new_valid valid; cut_loop intent valid invalid' nv
  end.
(** Lines 132-140: the two lists [valid] and [new_valid]. *)
Definition grow_one (st : list fimp * list fimp) (imp : fimp) : res (list fimp * list fimp) :=
  r ← remove_subsumed imp st.1;
  if (r.1 : bool) then
    q ← remove_subsumed_plus imp st.2;
    Ok (r.2, if (q.1 : bool) then q.2 ++ [imp] else q.2)
  else Ok (r.2, st.2).
Fixpoint grow_loop (cands : list fimp) (st : list fimp * list fimp) : res (list fimp * list fimp) :=
  match cands with
  | [] => Ok st
  | imp :: cands' => st' ← grow_one st imp; grow_loop cands' st'
  end.
(** Lines 118-141.  [ord k X] is the order in which [X] is iterated for the [k]-th
    invalid implication. *)
Definition updated_basis (ord : nat → gset name → list name) (intent : gset name) (basis : list fimp)
    (attributes : gset name) : res (list fimp) :=
  let valid := List.filter (still_valid intent) basis in
  let invalid := List.filter (fun i => negb (still_valid intent i)) basis in
  nv ← cut_loop intent valid invalid [];
  let cands := concat (imap (fun k (i : fimp) =>
    map (fun a => (i.1 ∪ {[a]}, conclusion i ∪ {[a]})) (ord k (attributes ∖ intent))) invalid) in
  r ← grow_loop cands (valid ++ nv, []);
  Ok (r.1 ++ r.2).
(** Lines 12-29. *)
Fixpoint cover_rows (ord : nat → nat → gset name → list name) (k : nat) (attributes : gset name)
    (intents : list (gset name)) (basis : list fimp) : res (list fimp) :=
  match intents with
  | [] => Ok basis
  | t :: ts => b ← updated_basis (ord k) t basis attributes; cover_rows ord (S k) attributes ts b
  end.
Definition compute_implication_cover (c : context) (ord : nat → nat → gset name → list name) : res (list fimp) :=
  exs ← examples c;
  cover_rows ord 0 (list_to_set (atts c)) exs [(∅, list_to_set (atts c))].

(** ** minimize (lines 144-158)
    Implications are changed in place, so a list of implications is a list of
    references into a heap.  [list.remove] removes the first equal element. *)
Fixpoint remove_ref (h : nat → fimp) (r : nat) (l : list nat) : res (list nat) :=
  match l with
  | [] => Err ValueError
  | s :: l' => if bool_decide (s = r) || imp_eqb (h s) (h r) then Ok l' else l'' ← remove_ref h r l'; Ok (s :: l'')
  end.
Fixpoint minimize_loop (todo cover : list nat) (h : nat → fimp) : res (list nat * (nat → fimp)) :=
  match todo with
  | [] => Ok (cover, h)
  | r :: todo' =>
      cover' ← remove_ref h r cover;
      P ← simple_closure (h r).1 (map h cover');
      let h' := fun s => if decide (s = r) then (P, (h r).2) else h s in
      minimize_loop todo' (if bool_decide (conclusion (h' r) ⊆ (h' r).1) then cover' else cover' ++ [r]) h'
  end.
Definition minimize (cover : list nat) (h : nat → fimp) : res (list nat * (nat → fimp)) :=
  minimize_loop cover cover h.
