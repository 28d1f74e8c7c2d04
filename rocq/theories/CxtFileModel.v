(** * Model of fca/readwrite/cxt.py, tab_separated.py, comma_separated.py and fimi.py *)
From Coq Require Import Ascii.
From Verif Require Import Py Spec ContextModel StrModel FileModel.
Local Open Scope string_scope.

Definition nl : string := String lf EmptyString.
Definition sconcat (l : list string) : string := join "" l.

(** ** cxt.py *)
(** Lines 71-74 and 79-82.  [ev] stands for Python's [eval]: the value or the
    exception; values other than strings and ints, and evaluations with side
    effects, are not represented. *)
Definition eval_name (ev : string → res name) (s : string) : res name :=
  match ev s with
  | Err NameError | Err SyntaxError => Ok (NStr s)
  | r => r
  end.
(** Lines 69-75 and 77-83.  The local variables seen by [eval] change from call to
    call: [ev k] is the evaluation of the k-th name. *)
Fixpoint read_names (ev : nat → string → res name) (k n : nat) (f : list string) : res (list name * list string) :=
  match n with
  | O => Ok ([], f)
  | S n' =>
      let '(l, f') := readline f in
      x ← eval_name (ev k) (strip l);
      r ← read_names ev (S k) n' f';
      Ok (x :: r.1, r.2)
  end.
(** Lines 86-88 and 152-154. *)
Fixpoint chars (s : string) : list ascii :=
  match s with EmptyString => [] | String a s' => a :: chars s' end.
Definition read_row (l : string) : list bool := map (λ c, bool_decide (c = "X"%char)) (chars (strip l)).
Fixpoint read_rows (n : nat) (f : list string) : list (list bool) * list string :=
  match n with
  | O => ([], f)
  | S n' => let '(l, f') := readline f in let r := read_rows n' f' in (read_row l :: r.1, r.2)
  end.
(** Lines 59-65 and 140-146: the header. *)
Definition read_header (f : list string) : res (Z * Z * list string) :=
  let '(l1, f1) := readline f in
  if decide (strip l1 = "B") then
    let '(_, f2) := readline f1 in
    let '(l3, f3) := readline f2 in
    n ← py_int (strip l3);
    let '(l4, f4) := readline f3 in
    k ← py_int (strip l4);
    let '(_, f5) := readline f4 in
    Ok (n, k, f5)
  else Err AssertionError.
(** Lines 6-92. *)
Definition read_cxt (ev : nat → string → res name) (contents : string) : res context :=
  '(n, k, f) ← read_header (open_r contents).2;
  os ← read_names ev 0 (Z.to_nat n) f;
  ats ← read_names ev (Z.to_nat n) (Z.to_nat k) os.2;
  mk_context (read_rows (Z.to_nat n) ats.2).1 None os.1 ats.1.
(** Lines 139-158: [str(s, "utf-8")] of a [str] raises TypeError. *)
Definition str_utf8 (s : string) : res name := Err TypeError.
Fixpoint uread_names (n : nat) (f : list string) : res (list name * list string) :=
  match n with
  | O => Ok ([], f)
  | S n' =>
      let '(l, f') := readline f in
      x ← str_utf8 (strip l);
      r ← uread_names n' f';
      Ok (x :: r.1, r.2)
  end.
Definition uread_cxt (contents : string) : res context :=
  '(n, k, f) ← read_header (open_r contents).2;
  os ← uread_names (Z.to_nat n) f;
  ats ← uread_names (Z.to_nat k) os.2;
  mk_context (read_rows (Z.to_nat n) ats.2).1 None os.1 ats.1.

(** Lines 95-115 and 117-137: what has been written when the call returns; [w]
    gives the text written for a name. *)
Definition write_with (w : name → res string) (c : context) : res string :=
  os ← mapM (λ i, x ← oname c i; s ← w x; Ok (s ++ nl)) (seq 0 (length (objs c)));
  ats ← mapM (λ j, x ← aname c j; s ← w x; Ok (s ++ nl)) (seq 0 (length (atts c)));
  rows ← mapM (λ i, r ← np_row c i; Ok (join "" (map cross_char r) ++ nl)) (seq 0 (length (objs c)));
  Ok ("B" ++ nl ++ nl ++ pretty (length (objs c)) ++ nl ++ pretty (length (atts c)) ++ nl ++ nl ++
      sconcat os ++ sconcat ats ++ sconcat rows).
Definition write_cxt (c : context) : res string := write_with (λ x, Ok (pystr x)) c.
(** [write] of a value that is not a [str] raises TypeError. *)
Definition uwrite_cxt (c : context) : res string :=
  write_with (λ x, match x with NStr s => Ok s | NInt _ => Err TypeError end) c.

(** ** tab_separated.py *)
(** Lines 33-38 and 94-99. *)
Definition cells01 (rec : list string) : list bool :=
  omap (λ s, if decide (s = "0") then Some false else if decide (s = "1") then Some true else None) rec.
(** Lines 31-39: one record. *)
Definition named_row (r : res (list string)) : res (name * list bool) :=
  rec ← r;
  o ← get_or IndexError (rec !! 0%nat);
  Ok (NStr o, cells01 rec).
(** [l[:-1]] *)
Definition but_last {A} (l : list A) : list A := take (length l - 1) l.
(** Lines 7-47. *)
Definition read_txt_with_names (contents : string) : res context :=
  '(rec, r1) ← csv_next (csv_reader tabc (open_r contents));
  let attributes := map strip rec in
  '(_, r2) ← csv_next r1;
  rows ← mapM named_row r2;
  t0 ← get_or IndexError (map snd rows !! 0%nat);
  let attributes := if decide (length attributes = length t0) then attributes
                    else but_last (py_split (String tabc "") (readline (open_r contents).2).1) in
  mk_context (map snd rows) None (map fst rows) (map NStr attributes).
(** Lines 49-112; splitting [bytes] with a [str] raises TypeError. *)
Definition read_txt (contents : string) : res context :=
  '(rec, r1) ← csv_next (csv_reader tabc (open_rb contents));
  let attributes := map strip rec in
  '(_, r2) ← csv_next r1;
  recs ← mapM (λ r : res (list string), rec ← r; Ok (cells01 rec)) r2;
  t0 ← get_or IndexError (recs !! 0%nat);
  if decide (length attributes = length t0)
  then mk_context recs None (map (λ i, NStr ("g" ++ pretty (S i))) (seq 0 (length recs))) (map NStr attributes)
  else Err TypeError.
(** Lines 115-180: the arguments handed to [ManyValuedContext]. *)
Definition read_mv_txt (contents : string) : res (list (list string) * list string * list string) :=
  '(rec, r1) ← csv_next (csv_reader tabc (open_rb contents));
  let objects := map strip rec in
  '(rec, r2) ← csv_next r1;
  let attributes := map strip rec in
  '(_, r3) ← csv_next r2;
  table ← mapM (λ r : res (list string), r) r3;
  if match table with [] => false | t0 :: _ => negb (length attributes =? length t0)%nat end
     || negb (length table =? length objects)%nat
  then Err TypeError
  else Ok (table, objects, attributes).
(** Lines 182-247: as before, but [str(x, "utf-8")] of a [str] raises TypeError. *)
Definition uread_mv_txt (contents : string) : res (list (list string) * list string * list string) :=
  '(rec, r1) ← csv_next (csv_reader tabc (open_rb contents));
  objects ← mapM (λ _ : string, Err TypeError) rec;
  '(rec, r2) ← csv_next r1;
  attributes ← mapM (λ _ : string, Err TypeError) rec;
  '(_, r3) ← csv_next r2;
  table ← mapM (λ r : res (list string), r) r3;
  if match table with [] => false | t0 :: _ => negb (length attributes =? length t0)%nat end
     || negb (length table =? length objects)%nat
  then Err TypeError
  else Ok (table, objects, attributes).

(** [sep.join(l)] raises TypeError for an element that is not a [str]. *)
Definition join_names (l : list name) : res string :=
  ss ← mapM (λ x, match x with NStr s => Ok s | NInt _ => Err TypeError end) l;
  Ok (join (String tabc "") ss).
(** [str(b)] *)
Definition py_bool (b : bool) : string := if b then "True" else "False".
(** Lines 258-260: [out] has been written before; [context[i]] is a row of the cross table
    (mvcontext.py 112-113). *)
Fixpoint write_mv_rows (c : context) (is_ : list nat) (out : string) : upd string () :=
  match is_ with
  | [] => (out, Ok tt)
  | i :: is' =>
      match cross c !! i with
      | None => (out, Err IndexError)
      | Some r => write_mv_rows c is' (out ++ join (String tabc "") (map py_bool r) ++ nl)
      end
  end.
(** Lines 249-262: the text handed to [write], and how the call ends.  Line ends are those
    of the program; the platform's translation and encoding errors are left out. *)
Definition write_mv_txt (c : context) : upd string () :=
  match join_names (objs c) with
  | Err e => ("", Err e)
  | Ok os =>
      match join_names (atts c) with
      | Err e => (os ++ nl, Err e)
      | Ok ats => write_mv_rows c (seq 0 (length (objs c))) (os ++ nl ++ ats ++ nl ++ nl)
      end
  end.
(** Lines 264-278: the first value handed to [write] is of type [bytes]: TypeError. *)
Definition uwrite_mv_txt (c : context) : upd string () :=
  match join_names (objs c) with Err e => ("", Err e) | Ok _ => ("", Err TypeError) end.

(** ** comma_separated.py *)
(** Lines 7-59: the arguments handed to [ManyValuedContext]. *)
Definition read_mv_csv (contents : string) : res (list (list string) * list string * list string) :=
  '(rec, r1) ← csv_next (csv_reader ","%char (open_rb contents));
  let attributes := map strip rec in
  rows ← mapM (λ r : res (list string), rec ← r; o ← get_or IndexError (rec !! 0%nat); Ok (strip o, tail rec)) r1;
  Ok (map snd rows, map fst rows, attributes).
(** Lines 61-68: the conversion of the cells is left out, it is never reached. *)
Definition read_csv (contents : string) : res (list (list string) * list string * list string) :=
  read_mv_csv contents.

(** ** fimi.py *)
(** Lines 1-10; [ord] is the iteration order of the set of attributes. *)
Definition write_fimi (ord : gset name → list name) (c : context) : res string :=
  ls ← mapM (λ o, B ← get_object_intent c o;
                  Ok (sconcat (map (λ a, pystr a ++ " ") (ord B)) ++ nl)) (objs c);
  Ok (sconcat ls).
