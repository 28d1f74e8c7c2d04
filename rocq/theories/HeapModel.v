(** * Model of fca/context.py (class Context) with references

    [ContextModel] treats contexts as values.  Here lists of names and numpy arrays are
    objects in a heap, instances hold references, methods change lists and arrays in place
    where the code does, and a client holds references of its own.  Line numbers refer
    to /repo/fca/context.py. *)
From Verif Require Import Py Spec ContextModel ContextOps.

(** A numpy array: rows, and the shape when there are none (see [ContextModel]). *)
Definition arr : Type := list (list bool) * option nat.
Record heap := Heap { hl : gmap nat (list name); ha : gmap nat arr; hn : nat }.
(** Instance variables (lines 243-249).  [cross_table] and the two dictionaries are created
    by every [__init__] and never changed in place, so they are kept as values. *)
Record inst := Inst {
  i_objs : nat; i_atts : nat; i_np : nat;
  i_cross : list (list bool); i_oidx : gmap name nat; i_aidx : gmap name nat }.
(** What an instance looks like at the moment. *)
Definition view (s : inst) (h : heap) : context :=
  Cxt (hl h !!! i_objs s) (hl h !!! i_atts s) (ha h !!! i_np s).1 (ha h !!! i_np s).2 (i_cross s) (i_oidx s) (i_aidx s).

(** Methods: they may change the instance and the heap, also when they raise. *)
Definition meth (A : Type) : Type := inst → heap → (inst * heap) * res A.
Definition mok {A} (x : A) : meth A := fun s h => ((s, h), Ok x).
Definition mthen {A B} (m : meth A) (k : A → meth B) : meth B := fun s h =>
  match m s h with
  | ((s', h'), Ok x) => k x s' h'
  | ((s', h'), Err e) => ((s', h'), Err e)
  end.
Definition lift {A} (r : res A) : meth A := fun s h => ((s, h), r).
Definition look : meth context := fun s h => ((s, h), Ok (view s h)).
Definition this {A} (f : inst → A) : meth A := fun s h => ((s, h), Ok (f s)).
Definition become (s' : inst) : meth () := fun _ h => ((s', h), Ok tt).
Definition rd_l (l : nat) : meth (list name) := fun s h => ((s, h), Ok (hl h !!! l)).
Definition wr_l (l : nat) (v : list name) : meth () := fun s h => ((s, Heap (<[l := v]> (hl h)) (ha h) (hn h)), Ok tt).
Definition new_l (v : list name) : meth nat := fun s h =>
  ((s, Heap (<[hn h := v]> (hl h)) (ha h) (S (hn h))), Ok (hn h)).
Definition wr_a (l : nat) (v : arr) : meth () := fun s h => ((s, Heap (hl h) (<[l := v]> (ha h)) (hn h)), Ok tt).
Definition new_a (v : arr) : meth nat := fun s h =>
  ((s, Heap (hl h) (<[hn h := v]> (ha h)) (S (hn h))), Ok (hn h)).
Local Notation "x <- m ;; k" := (mthen m (fun x => k)) (at level 100, m at next level, right associativity).
Local Notation "m ;;; k" := (mthen m (fun _ => k)) (at level 100, right associativity).

(** Lines 201-249.  [ol] and [al] are references to the lists passed.  Slices copy (lines
    222, 232), the renaming loops work on the copies, [np.array] copies. *)
Definition h_init (t : list (list bool)) (z : option nat) (ol al : nat) : meth () :=
  os <- rd_l ol;;
  ats <- rd_l al;;
  if negb (length t =? length os)%nat then lift (Err ValueError)
  else if match t with [] => false | r :: _ => negb (length r =? length ats)%nat end then lift (Err ValueError)
  else if negb (rectangular t) then lift (Err ValueError)
  else
    al' <- new_l ats;;
    wr_l al' (uniquify ats);;;
    ol' <- new_l os;;
    wr_l ol' (uniquify os);;;
    na <- new_a (t, match t with [] => z | _ => None end);;
    become (Inst ol' al' na t (index_dict (uniquify os)) (index_dict (uniquify ats))).

(** [self.__init__(t, self.objects, self.attributes)]. *)
Definition h_reinit (t : list (list bool)) (z : option nat) : meth () :=
  ol <- this i_objs;; al <- this i_atts;; h_init t z ol al.
(** [self.np_table = ...]. *)
Definition set_np (a : arr) : meth () :=
  na <- new_a a;; s <- this id;; become (Inst (i_objs s) (i_atts s) na (i_cross s) (i_oidx s) (i_aidx s)).

(** Lines 361-366. *)
Definition h_add_attribute (col : list bool) (a : name) : meth () :=
  c <- look;;
  if negb (length col =? length (np c))%nat then lift (Err ValueError)
  else al <- new_l (atts c ++ [a]);; ol <- this i_objs;;
       h_init (zip_with (fun r b => r ++ [b]) (np c) col) (match npz c with None => Some 2 | Some k => Some (S k) end) ol al.
(** Lines 368-378. *)
Definition h_add_object (row : list bool) (o : name) : meth () :=
  c <- look;;
  match np c with
  | [] => ol <- new_l (objs c ++ [o]);; al <- this i_atts;; h_init [row] None ol al
  | r0 :: _ =>
      if negb (length row =? length r0)%nat then lift (Err ValueError)
      else ol <- new_l (objs c ++ [o]);; al <- this i_atts;; h_init (np c ++ [row]) None ol al
  end.
(** Lines 380-386. *)
Definition h_add_object_with_intent (intent : gset name) (o : name) : meth () :=
  c <- look;; h_add_object (map (fun a => bool_decide (a ∈ intent)) (atts c)) o.
Definition h_add_attribute_with_extent (extent : gset name) (a : name) : meth () :=
  c <- look;; h_add_attribute (map (fun o => bool_decide (o ∈ extent)) (objs c)) a.
(** Lines 388-394: the array is written in place. *)
Definition h_set_attribute_extent (extent : list name) (a : name) : meth () :=
  c <- look;;
  t <- lift (inds ← mapM (oind c) extent; col ← set_flags (length (objs c)) inds; j ← aind c a; np_set_col c j col);;
  l <- this i_np;;
  wr_a l (t, npz c);;;
  h_reinit t None.
(** Lines 396-401. *)
Definition h_set_object_intent (intent : list name) (o : name) : meth () :=
  c <- look;;
  t <- lift (inds ← mapM (aind c) intent; row ← set_flags (length (atts c)) inds; i ← oind c o;
             if (i <? length (np c))%nat then Ok (<[i := row]> (np c)) else Err IndexError);;
  l <- this i_np;;
  wr_a l (t, npz c);;;
  h_reinit t (npz c).
(** Lines 403-408: a new array, but the name is deleted from the list in place. *)
Definition h_delete_object (o : name) : meth () :=
  c <- look;;
  i <- lift (oind c o);;
  if (i <? length (np c))%nat then
    set_np (delete i (np c), match np c with r :: _ => Some (length r) | [] => npz c end);;;
    ol <- this i_objs;;
    wr_l ol (delete i (objs c));;;
    h_reinit (delete i (np c)) None
  else lift (Err IndexError).
(** Lines 410-415. *)
Definition h_delete_attribute (a : name) : meth () :=
  c <- look;;
  r <- lift (j ← aind c a; t ← np_delete_cols c [j]; Ok (j, t));;
  set_np r.2;;;
  al <- this i_atts;;
  wr_l al (delete r.1 (atts c));;;
  h_reinit r.2.1 None.
(** Lines 417-423.  The deletions in place are one write here. *)
Definition h_delete_attributes (names : list name) : meth () :=
  c <- look;;
  r <- lift (inds ← mapM (aind c) names; t ← np_delete_cols c inds; Ok (inds, t));;
  set_np r.2;;;
  al <- this i_atts;;
  let d := del_all (atts c) (isort (fun i j => (j <=? i)%nat) r.1) in
  wr_l al d.1;;;
  lift d.2;;;
  h_reinit r.2.1 None.
(** Lines 425-431. *)
Definition h_rename_object (old new : name) : meth () :=
  c <- look;;
  i <- lift (oind c old);;
  if (i <? length (objs c))%nat
  then ol <- this i_objs;; wr_l ol (<[i := new]> (objs c));;; h_reinit (np c) (npz c)
  else lift (Err IndexError).
Definition h_rename_attribute (old new : name) : meth () :=
  c <- look;;
  j <- lift (aind c old);;
  if (j <? length (atts c))%nat
  then al <- this i_atts;; wr_l al (<[j := new]> (atts c));;; h_reinit (np c) (npz c)
  else lift (Err IndexError).
(** Lines 562-570. *)
Fixpoint h_delete_objects (l : list name) : meth () :=
  match l with
  | [] => mok tt
  | o :: l' => h_delete_object o;;; h_delete_objects l'
  end.
Definition h_remove_empty_objects : meth () :=
  c <- look;;
  l <- lift (l ← mapM (fun i : nat => r ← np_row c i; o ← oname c i; Ok (r, o)) (seq 0 (length (objs c)));
             Ok (map snd (filter (fun p : list bool * name => existsb id p.1 = false) l)));;
  h_delete_objects l.
Definition h_step (o : op) : meth () :=
  match o with
  | OpAddObject row x => h_add_object row x
  | OpAddAttribute col a => h_add_attribute col a
  | OpAddObjectWithIntent i x => h_add_object_with_intent i x
  | OpAddAttributeWithExtent e a => h_add_attribute_with_extent e a
  | OpSetAttributeExtent e a => h_set_attribute_extent e a
  | OpSetObjectIntent i x => h_set_object_intent i x
  | OpDeleteObject x => h_delete_object x
  | OpDeleteAttribute a => h_delete_attribute a
  | OpDeleteAttributes ns => h_delete_attributes ns
  | OpRenameObject a b => h_rename_object a b
  | OpRenameAttribute a b => h_rename_attribute a b
  | OpRemoveEmptyObjects => h_remove_empty_objects
  end.

(** ** Methods that return a new context *)
(** The methods of lines 263-266, 527-553, 694-792; [L] stands for the lists of names
    passed as arguments and [I] for contexts passed as arguments. *)
Inductive derivation (L I : Type) :=
  | DDeepcopy
  | DTranspose
  | DFiltered (names : L) (mode : string)
  | DSub (names : L)
  | DMul (y : I)
  | DClarify
  | DReduceObjects
  | DReduceAttributes
  | DComplementary
  | DCompound.
Global Arguments DDeepcopy {L I}.
Global Arguments DTranspose {L I}.
Global Arguments DFiltered {L I} names mode.
Global Arguments DSub {L I} names.
Global Arguments DMul {L I} y.
Global Arguments DClarify {L I}.
Global Arguments DReduceObjects {L I}.
Global Arguments DReduceAttributes {L I}.
Global Arguments DComplementary {L I}.
Global Arguments DCompound {L I}.
Definition d_map {L I L' I'} (f : L → option L') (g : I → option I') (d : derivation L I)
  : option (derivation L' I') :=
  match d with
  | DDeepcopy => Some DDeepcopy
  | DTranspose => Some DTranspose
  | DFiltered v mode => l ← f v; Some (DFiltered l mode)
  | DSub v => l ← f v; Some (DSub l)
  | DMul y => i ← g y; Some (DMul i)
  | DClarify => Some DClarify
  | DReduceObjects => Some DReduceObjects
  | DReduceAttributes => Some DReduceAttributes
  | DComplementary => Some DComplementary
  | DCompound => Some DCompound
  end.

(** What is passed to the constructor: table, shape, and two references.  The contexts
    made on the way by [reduce_attributes] and [compound] cannot be reached afterwards
    and are kept as values. *)
Definition d_args (d : derivation nat inst) : meth (list (list bool) * option nat * (nat * nat)) :=
  c <- look;;
  match d with
  | DDeepcopy =>
      ol <- new_l (objs c);; al <- new_l (atts c);; mok (np c, npz c, (ol, al))
  | DTranspose =>
      ol <- new_l (atts c);; al <- new_l (objs c);;
      t <- lift (mapM (fun j => mapM (fun i => cell c i j) (seq 0 (length (objs c)))) (seq 0 (length (atts c))));;
      mok (t, None, (ol, al))
  | DFiltered v mode =>
      names <- rd_l v;;
      r <- lift (extract_by_attribute_values c (map fst (dict_of (map (fun a => (a, tt)) names))) mode);;
      ol <- new_l r.1;; al <- this i_atts;; mok (r.2, None, (ol, al))
  | DSub v =>
      names <- rd_l v;;
      t <- lift (extract_subtable c names);;
      ol <- this i_objs;; mok (t, None, (ol, v))
  | DMul y =>
      t <- (fun s h => ((s, h), mul_table c (view y h)));;
      ol <- this i_objs;; mok (t, None, (ol, i_atts y))
  | DClarify =>
      let d := dict_of (zip (np c) (objs c)) in
      ol <- new_l (map snd d);; al <- this i_atts;; mok (map fst d, None, (ol, al))
  | DReduceObjects =>
      r <- lift (reduced_rows c);;
      ol <- new_l r.1;; al <- this i_atts;; mok (r.2, None, (ol, al))
  | DReduceAttributes =>
      c' <- lift (t ← transpose c; reduce_objects t);;
      ol <- new_l (atts c');; al <- new_l (objs c');;
      t <- lift (mapM (fun j => mapM (fun i => cell c' i j) (seq 0 (length (objs c')))) (seq 0 (length (atts c'))));;
      mok (t, None, (ol, al))
  | DComplementary =>
      ats <- lift (mapM (fun a => match a with NStr s => Ok (NStr ("not " ++ s)) | NInt _ => Err TypeError end) (atts c));;
      t <- lift (mapM (fun i => mapM (fun j => b ← cell c i j; Ok (negb b)) (seq 0 (length (atts c)))) (seq 0 (length (objs c))));;
      ol <- this i_objs;; al <- new_l ats;; mok (t, None, (ol, al))
  | DCompound =>
      cc <- lift (complementary c);;
      t <- lift (mapM (fun i => r ← np_row c i; r' ← np_row cc i;
                     if (length r =? length r')%nat then Ok (zip_with orb r r') else Err ValueError)
           (seq 0 (length (objs c))));;
      ol <- this i_objs;; al <- new_l (atts c ++ atts cc)%list;; mok (t, None, (ol, al))
  end.

(** ** A client *)
(** A client owns lists of names and tables, which it may change in place, and contexts.
    Variables are numbered in the order of creation. *)
Record world := World { w_heap : heap; w_lists : list nat; w_tables : list nat; w_cxts : list inst }.
Inductive cmd :=
  | CList (l : list name)                       (* v = [...] *)
  | CPutList (v : nat) (l : list name)          (* v[:] = [...] *)
  | CTable (t : list (list bool))
  | CPutTable (v : nat) (t : list (list bool))
  | CNew (tv ov av : nat)                       (* Context(t, o, a) *)
  | CMut (x : nat) (o : op)
  | CDerive (x : nat) (d : derivation nat nat).
Definition no_inst : inst := Inst 0 0 0 [] ∅ ∅.
(** [Context(t, o, a)]: the constructor runs on a new instance, which is bound to a
    variable unless an exception is raised. *)
Definition w_new (w : world) (t : list (list bool)) (z : option nat) (ol al : nat) : world * res () :=
  match h_init t z ol al no_inst (w_heap w) with
  | ((s, h), Ok _) => (World h (w_lists w) (w_tables w) (w_cxts w ++ [s])%list, Ok tt)
  | ((_, h), Err e) => (World h (w_lists w) (w_tables w) (w_cxts w), Err e)
  end.
Definition w_cmd (w : world) (k : cmd) : world * res () :=
  let h := w_heap w in
  match k with
  | CList l => (World (Heap (<[hn h := l]> (hl h)) (ha h) (S (hn h))) (w_lists w ++ [hn h])%list (w_tables w) (w_cxts w), Ok tt)
  | CPutList v l =>
      match w_lists w !! v with
      | Some r => (World (Heap (<[r := l]> (hl h)) (ha h) (hn h)) (w_lists w) (w_tables w) (w_cxts w), Ok tt)
      | None => (w, Err UnboundLocalError)
      end
  | CTable t => (World (Heap (hl h) (<[hn h := (t, None)]> (ha h)) (S (hn h))) (w_lists w) (w_tables w ++ [hn h])%list (w_cxts w), Ok tt)
  | CPutTable v t =>
      match w_tables w !! v with
      | Some r => (World (Heap (hl h) (<[r := (t, None)]> (ha h)) (hn h)) (w_lists w) (w_tables w) (w_cxts w), Ok tt)
      | None => (w, Err UnboundLocalError)
      end
  | CNew tv ov av =>
      match w_tables w !! tv, w_lists w !! ov, w_lists w !! av with
      | Some t, Some o, Some a => w_new w (ha h !!! t).1 (ha h !!! t).2 o a
      | _, _, _ => (w, Err UnboundLocalError)
      end
  | CMut x o =>
      match w_cxts w !! x with
      | Some s => let '((s', h'), r) := h_step o s h in
                  (World h' (w_lists w) (w_tables w) (<[x := s']> (w_cxts w)), r)
      | None => (w, Err UnboundLocalError)
      end
  | CDerive x d =>
      match w_cxts w !! x, d_map (fun v => w_lists w !! v) (fun y => w_cxts w !! y) d with
      | Some s, Some d' =>
          let '((s', h'), r) := d_args d' s h in
          let w' := World h' (w_lists w) (w_tables w) (<[x := s']> (w_cxts w)) in
          match r with
          | Ok (t, z, (ol, al)) => w_new w' t z ol al
          | Err e => (w', Err e)
          end
      | _, _ => (w, Err UnboundLocalError)
      end
  end.
Fixpoint w_run (w : world) (p : list cmd) : world * list (res ()) :=
  match p with
  | [] => (w, [])
  | k :: p' => let '(w1, r) := w_cmd w k in let '(w2, rs) := w_run w1 p' in (w2, r :: rs)
  end.
Definition start : world := World (Heap ∅ ∅ 0) [] [] [].
(** [v = c.objects] (lines 260-262) and [v = c.attributes] (lines 255-258): the variable
    refers to the list of the context itself. *)
Definition w_objects (w : world) (x : nat) : world :=
  match w_cxts w !! x with
  | Some s => World (w_heap w) (w_lists w ++ [i_objs s])%list (w_tables w) (w_cxts w)
  | None => w
  end.
Definition w_attributes (w : world) (x : nat) : world :=
  match w_cxts w !! x with
  | Some s => World (w_heap w) (w_lists w ++ [i_atts s])%list (w_tables w) (w_cxts w)
  | None => w
  end.
(** [v = c.table] (lines 251-253): the array itself. *)
Definition w_table (w : world) (x : nat) : world :=
  match w_cxts w !! x with
  | Some s => World (w_heap w) (w_lists w) (w_tables w ++ [i_np s])%list (w_cxts w)
  | None => w
  end.
