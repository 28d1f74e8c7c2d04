(** * Line diagrams (no reference to the code) *)
From Coq Require Import Ascii.
From Verif Require Import Py Spec LatticeSpec.
Local Open Scope string_scope.

(** The concept [x] is generated by the object [g] / by the attribute [m]. *)
Definition object_concept (K : fctx) (g : name) (x : gset name * gset name) : Prop :=
  g ∈ fG K ∧ x.1 = ocl K {[g]} ∧ x.2 = up K {[g]}.
Definition attribute_concept (K : fctx) (m : name) (x : gset name * gset name) : Prop :=
  m ∈ fM K ∧ x.1 = down K {[m]} ∧ x.2 = acl K {[m]}.

(** Text of a graphviz file. *)
Definition eol : string := String (ascii_of_nat 10) "".
Definition quote (s : string) : string := String (ascii_of_nat 34) "" ++ s ++ String (ascii_of_nat 34) "".
Fixpoint concat_strings (l : list string) : string := match l with [] => "" | x :: l' => x ++ concat_strings l' end.
(** Pieces separated by a backslash, an "n" and a blank. *)
Definition label_text (l : list string) : string :=
  match l with
  | [] => ""
  | x :: l' => x ++ concat_strings (map (fun y => String (ascii_of_nat 92) "n " ++ y) l')
  end.
Definition node_line (i : nat) : string := "c" ++ pretty i ++ " [width=0.25]" ++ eol.
Definition edge_line (p : nat * nat) : string := "c" ++ pretty p.1 ++ " -> c" ++ pretty p.2 ++ eol.
(** A self-loop carrying a label, absent when there is nothing to show. *)
Definition label_line (which style : string) (i : nat) (l : list string) : string :=
  match l with
  | [] => ""
  | _ => "c" ++ pretty i ++ " -> c" ++ pretty i ++ "[" ++ which ++ "=" ++ quote (label_text l) ++ ", " ++ style ++ "]" ++ eol
  end.
(** Five names or more are replaced by their number. *)
Definition abbreviate (l : list string) : list string :=
  if (5 <=? length l)%nat then [pretty (length l)] else l.
(** At most six names are shown. *)
Definition first_six (l : list string) : list string :=
  if (6 <? length l)%nat then (take 6 l ++ ["..."])%list else l.
Definition count_only (l : list string) : list string :=
  match l with [] => [] | _ => [pretty (length l)] end.
(** A node with the labels of its own objects and attributes. *)
Definition node_text (i : nat) (os ats : list string) : string :=
  node_line i ++ label_line "headlabel" "labeldistance=1,labelangle=270,color=transparent" i (abbreviate os) ++
  label_line "taillabel" "labeldistance=2,labelangle=90,color=transparent" i (abbreviate ats).
(** The labels of the other export: either the first names or only their number. *)
Definition shown_names (full : bool) (l : list string) : list string := if full then first_six l else count_only l.
Definition ulabel (dist : nat → string) (which angle : string) (i : nat) (shown : list string) : string :=
  label_line which ("labeldistance=" ++ dist (length shown) ++ ",labelangle=" ++ angle ++ ",color=transparent") i shown.
