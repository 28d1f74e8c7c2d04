(** * Model of fca/readwrite/dot.py and fca/readwrite/xml_.py *)
From Coq Require Import Ascii.
From Verif Require Import Py Spec ContextModel StrModel FileModel CxtFileModel LatticeModel.
Local Open Scope string_scope.

Definition qt : string := String quotec "".
Definition backslash_n : string := String (ascii_of_nat 92) "n".

(** ** dot.py *)
(** Lines 122-134 (with [sel = extent]) and 136-148 (with [sel = intent]); [ord]
    is the iteration order of sets of names.  A name is appended and removed again
    when a smaller set of the system contains it. *)
Definition own_names (sel : fconcept → gset name) (ord : gset name → list name) (cs : list fconcept) (x : fconcept) : list name :=
  foldl (fun acc n => if existsb (fun y => bool_decide (sel y ⊂ sel x) && bool_decide (n ∈ sel y)) cs
                      then acc else acc ++ [n])%list [] (ord (sel x)).
Definition find_own (sel : fconcept → gset name) (ord : gset name → list name) (cs : list fconcept)
  : res (list (fconcept * list name)) :=
  if forallb chash cs then Ok (dict_of (map (fun x => (x, own_names sel ord cs x)) cs)) else Err TypeError.
Definition find_own_objects := find_own fst.
Definition find_own_attributes := find_own snd.
(** ["\\n ".join(l)]: TypeError unless all names are strings. *)
Definition join_names (l : list name) : res string :=
  ss ← mapM (fun x => match x with NStr s => Ok s | NInt _ => Err TypeError end) l;
  Ok (join (backslash_n ++ " ") ss).
(** Lines 38-46 and 47-55: the label of the i-th concept; the dictionary may be
    changed. *)
Definition dot_label (which : string) (style : string) (d : list (fconcept * list name)) (i : nat) (x : fconcept)
  : res (string * list (fconcept * list name)) :=
  own ← cget d x;
  match own with
  | [] => Ok ("", d)
  | _ =>
      let own' := if (5 <=? length own)%nat then [NStr (pretty (length own))] else own in
      t ← join_names own';
      Ok ("c" ++ pretty i ++ " -> c" ++ pretty i ++ "[" ++ which ++ "=" ++ qt ++ t ++ qt ++ ", " ++ style ++ nl,
          dset x own' d)
  end.
Definition head_style : string := "labeldistance=1,labelangle=270,color=transparent]".
Definition tail_style : string := "labeldistance=2,labelangle=90,color=transparent]".
(** Lines 36-55. *)
Fixpoint dot_nodes (dob dat : list (fconcept * list name)) (i : nat) (cs : list fconcept) : res string :=
  match cs with
  | [] => Ok ""
  | x :: cs' =>
      h ← dot_label "headlabel" head_style dob i x;
      t ← dot_label "taillabel" tail_style dat i x;
      r ← dot_nodes h.2 t.2 (S i) cs';
      Ok ("c" ++ pretty i ++ " [width=0.25]" ++ nl ++ h.1 ++ t.1 ++ r)
  end.
(** Lines 57-60; [ordc] is the iteration order of sets of concepts. *)
Definition dot_edges (ordc : gset fconcept → list fconcept) (cs : list fconcept) : res string :=
  parents ← compute_covering_relation cs;
  es ← mapM (fun p : nat * fconcept =>
               ps ← cget parents p.2;
               ls ← mapM (fun y => k ← py_index y cs; Ok ("c" ++ pretty k ++ " -> c" ++ pretty p.1 ++ nl)) (ordc ps);
               Ok (sconcat ls)) (imap pair cs);
  Ok (sconcat es).
Definition dot_header : string :=
  "digraph L{" ++ nl ++ "nodesep=.25;" ++ nl ++ "node[shape=circle,label=" ++ qt ++ qt ++ "];" ++ nl ++
  "edge[dir=" ++ qt ++ "none" ++ qt ++ ",minlen=2,fontsize=11,labelfloat=true,fontname=Arial];" ++ nl.
(** Lines 6-63: the contents of the file when the call returns. *)
Definition write_dot (ord : gset name → list name) (ordc : gset fconcept → list fconcept) (cs : list fconcept)
    (path : string) : res string :=
  if decide (path = "") then Err AssertionError
  else
    dob ← find_own_objects ord cs;
    dat ← find_own_attributes ord cs;
    nodes ← dot_nodes dob dat 0 cs;
    edges ← dot_edges ordc cs;
    Ok (dot_header ++ nodes ++ edges ++ "}").

(** Lines 91-103 and 104-116: the label of the i-th concept; [dist n] is the text
    of the float [n/1.8 + 0.5]. *)
Definition udot_label (dist : nat → string) (full : bool) (which angle : string) (d : list (fconcept * list name))
    (i : nat) (x : fconcept) : res (string * list (fconcept * list name)) :=
  own ← cget d x;
  match own with
  | [] => Ok ("", d)
  | _ =>
      let own1 := if full then own else [NStr (pretty (length own))] in
      let own2 := if (6 <? length own1)%nat then (take 6 own1 ++ [NStr "..."])%list else own1 in
      t ← join_names own2;
      Ok ("c" ++ pretty i ++ " -> c" ++ pretty i ++ "[" ++ which ++ "=" ++ qt ++ t ++ qt ++ ", labeldistance=" ++
          dist (length own2) ++ ",labelangle=" ++ angle ++ ",color=transparent]" ++ nl, dset x own2 d)
  end.
Fixpoint udot_labels (dist : nat → string) (full : bool) (dob dat : list (fconcept * list name)) (i : nat) (cs : list fconcept)
  : res string :=
  match cs with
  | [] => Ok ""
  | x :: cs' =>
      h ← udot_label dist full "headlabel" "270" dob i x;
      t ← udot_label dist full "taillabel" "90" dat i x;
      r ← udot_labels dist full h.2 t.2 (S i) cs';
      Ok (h.1 ++ t.1 ++ r)
  end.
Definition udot_header : string :=
  "digraph L{" ++ nl ++ "nodesep=.25;" ++ nl ++ "node[shape=circle,label=" ++ qt ++ qt ++ "];" ++ nl ++
  "edge[dir=" ++ qt ++ "none" ++ qt ++ ",minlen=2,fontsize=9,labelfloat=true,fontname=Arial,color=grey,style=" ++ qt ++
  "setlinewidth(.7)" ++ qt ++ "];" ++ nl.
(** Lines 65-120. *)
Definition uwrite_dot (dist : nat → string) (ord : gset name → list name) (ordc : gset fconcept → list fconcept)
    (cs : list fconcept) (path : string) (full : bool) : res string :=
  if decide (path = "") then Err AssertionError
  else
    dob ← find_own_objects ord cs;
    dat ← find_own_attributes ord cs;
    edges ← dot_edges ordc cs;
    labels ← udot_labels dist full dob dat 0 cs;
    Ok (udot_header ++ sconcat (map (fun i => "c" ++ pretty i ++ " [width=0.25]" ++ nl) (seq 0 (length cs))) ++
        edges ++ labels ++ "}").

(** ** xml_.py *)
(** Lines 41 and 50: [createTextNode(x.encode("utf-8"))]: an int has no [encode],
    [bytes] are refused. *)
Definition text_node (x : name) : res () :=
  match x with NStr _ => Err TypeError | NInt _ => Err AttributeError end.
(** Lines 9-85; [ord] is the iteration order of sets of names.  The last step
    writes text to a file opened in binary mode.  The attributes made from [meta]
    are left out. *)
Definition write_xml (ord : gset name → list name) (cs : list fconcept) : res string :=
  let objects := ord (⋃ map fst cs) in
  let attributes := ord (⋃ map snd cs) in
  _ ← mapM text_node objects;
  _ ← mapM text_node attributes;
  Err TypeError.
(** Lines 88-183 and 185-268: [ParseFile] wants [bytes]; parsing itself is never
    reached. *)
Definition read_xml (contents : string) : res (list fconcept) :=
  if (open_r contents).1 then Err Unmodelled else Err TypeError.
Definition uread_xml (contents : string) : res (list fconcept) :=
  if (open_r contents).1 then Err Unmodelled else Err TypeError.
