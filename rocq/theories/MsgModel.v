(** * What the constructor and the operations of contexts report *)
From Coq Require Import Ascii.
From Verif Require Import Py ContextModel.

(** [s.format(args)] for strings whose only placeholders are [{}] (escaped braces and
    named fields do not occur in the places cited below).  Too few arguments raise
    IndexError, further arguments are ignored. *)
Fixpoint fmt (s : string) (args : list string) : res string :=
  match s with
  | EmptyString => Ok EmptyString
  | String "{"%char (String "}"%char s') =>
      match args with
      | [] => Err IndexError
      | a :: args' => r ← fmt s' args'; Ok (a ++ r)%string
      end
  | String ch s' => r ← fmt s' args; Ok (String ch r)
  end.

(** fca/context.py lines 215-221: the text of the ValueError raised because of the sizes;
    [None] if these checks are passed ([%i] prints decimals). *)
Definition init_message (t : list (list bool)) (os ats : list name) : option string :=
  if negb (length t =? length os)%nat
  then Some ("Number of objects (=" ++ pretty (length os) ++ ") and number of cross table rows(=" ++
             pretty (length t) ++ ") must agree")%string
  else match t with
       | [] => None
       | r :: _ =>
           if negb (length r =? length ats)%nat
           then Some ("Number of attributes (=" ++ pretty (length ats) ++ ") and number of cross table columns (=" ++
                      pretty (length r) ++ ") must agree")%string
           else None
       end.

(** Lines 226 and 236: [[i for i, x in enumerate(l) if x == a]]. *)
Definition positions (a : name) (l : list name) : list nat :=
  map fst (List.filter (fun p => bool_decide (p.2 = a)) (imap (fun i x => (i, x)) l)).

(** Lines 224-231 / 234-241, one iteration, with the name and the positions that the message
    of lines 229-231 / 239-241 is made of. *)
Definition rename_log_at (st : list name * list (name * list nat)) (k : nat) : list name * list (name * list nat) :=
  let '(l, log) := st in
  match l !! k with
  | None => (l, log)
  | Some a => if (1 <? py_count a l)%nat
              then (rename_dups_at l k, log ++ [(a, positions a l)])
              else (l, log)
  end.
(** Lines 222-231 / 232-241. *)
Definition uniquify_log (l : list name) : list name * list (name * list nat) :=
  if (size (list_to_set l : gset name) <? length l)%nat
  then foldl rename_log_at (l, []) (seq 0 (length l))
  else (l, []).

(** [str] of a list of integers. *)
Definition str_nats (l : list nat) : string := ("[" ++ join ", " (map pretty l) ++ "]")%string.
(** Lines 229-230 with [kind] = attribute, lines 239-240 with [kind] = object. *)
Definition log_message (kind : string) (e : name * list nat) : res string :=
  s1 ← fmt ("Not unique name of " ++ kind ++ " '{}', ")%string [pystr e.1];
  s2 ← fmt "renamed to '{}_n', n \in {}" [pystr e.1; str_nats e.2];
  Ok (s1 ++ s2)%string.

(** Lines 201-249: the constructor together with the messages logged at level info: first those
    for attributes, then those for objects, all of them before the table is converted, so also if
    that fails. *)
Definition mk_context_logged (t : list (list bool)) (z : option nat) (os ats : list name)
  : list string * res context :=
  match init_message t os ats with
  | Some _ => ([], Err ValueError)
  | None =>
      let '(ats', la) := uniquify_log ats in
      let '(os', lo) := uniquify_log os in
      match (sa ← mapM (log_message "attribute") la; so ← mapM (log_message "object") lo; Ok (sa ++ so)) with
      | Err e => ([], Err e)
      | Ok msgs =>
          (msgs, if negb (rectangular t) then Err ValueError
                 else Ok (Cxt os' ats' t (match t with [] => z | _ => None end) t (index_dict os') (index_dict ats')))
      end
  end.

(** Lines 34-43: the text of the MultiplicationException for a product of contexts. *)
Definition mul_message (c d : context) : res string :=
  s1 ← fmt ("Attributes of the first context:" ++ newline) [pretty (length (atts c))];
  s2 ← fmt (newline ++ "and number of objects of the second context:" ++ newline) [pretty (length (objs d))];
  Ok (s1 ++ s2 ++ newline ++ "should be the same.")%string.

(** Lines 644-649: the text of the ValueError for unknown attribute names; [ord] is the order in
    which the set of wrong names is iterated. *)
Definition wrong_names_message (ord : gset name → list name) (c : context) (names : list name) : option string :=
  if bool_decide ((list_to_set names : gset name) ⊆ list_to_set (atts c)) then None
  else Some ("Wrong attribute names:" ++ newline ++
             foldl (fun s a => s ++ (tab ++ pystr a ++ newline)) ""
               (ord (list_to_set names ∖ list_to_set (atts c))))%string.
