(** * File formats: what the statements about reading and writing need *)
From Coq Require Import Ascii.
From Verif Require Import Py ContextModel StrModel FileModel CxtFileModel.
Local Open Scope string_scope.

Fixpoint has_ch (a : ascii) (s : string) : bool :=
  match s with EmptyString => false | String b s' => bool_decide (b = a) || has_ch a s' end.
(** No line break inside. *)
Definition one_line (s : string) : Prop := has_ch lf s = false ∧ has_ch cr s = false.
(** The name [x] survives being written on a line and read as the k-th name; [ev k]
    is Python's [eval] at that moment. *)
Definition readable (ev : nat → string → res name) (k : nat) (x : name) : Prop :=
  (ev k (pystr x) = Ok x ∨ is_str x = true ∧ (ev k (pystr x) = Err NameError ∨ ev k (pystr x) = Err SyntaxError)) ∧
  strip (pystr x) = pystr x ∧ one_line (pystr x).

(** The same text with Windows or old Macintosh line ends. *)
Fixpoint with_ends (e : string) (s : string) : string :=
  match s with
  | EmptyString => EmptyString
  | String a s' => if decide (a = lf) then e ++ with_ends e s' else String a (with_ends e s')
  end.
Definition crlf : string := String cr (String lf "").
Definition cr1 : string := String cr "".

(** ** Tab separated files *)
Definition tabs : string := String tabc "".
Definition starts_with_quote (s : string) : bool :=
  match s with String a _ => bool_decide (a = quotec) | EmptyString => false end.
(** A field that the reader takes as it is. *)
Definition plain (s : string) : Prop := one_line s ∧ has_ch tabc s = false ∧ starts_with_quote s = false.
(** A line of attributes, an empty line, and a line for each object: its name and 0s and 1s. *)
Definition bit (b : bool) : string := if b then "1" else "0".
Definition txt_file (ats : list string) (rows : list (string * list bool)) : string :=
  sconcat (map (λ fs, join tabs fs ++ nl) (ats :: [] :: map (λ r, r.1 :: map bit r.2) rows)).
Definition is01 (o : string) : bool := bool_decide (o = "0") || bool_decide (o = "1").

(** Many-valued format: objects, attributes, an empty line, and the values of each object. *)
Definition mv_file (os ats : list string) (rows : list (list bool)) : string :=
  sconcat (map (λ fs, join tabs fs ++ nl) (os :: ats :: [] :: map (map (λ b : bool, if b then "True" else "False")) rows)).

(** ** fimi: one line for each object, each attribute followed by a blank *)
Definition fimi_line (as_ : list name) : string := sconcat (map (λ a, pystr a ++ " ") as_).
