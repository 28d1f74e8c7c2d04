(** * Python text files, [int()] and the csv reader

    A file is its contents, a string; characters beyond code point 255 are not
    represented, decoding is the identity. *)
From Coq Require Import Ascii.
From Verif Require Import Py ContextModel StrModel.

Definition lf : ascii := ascii_of_nat 10.
Definition cr : ascii := ascii_of_nat 13.
Definition tabc : ascii := ascii_of_nat 9.
Definition quotec : ascii := ascii_of_nat 34.

(** Reading in text mode translates "\r\n" and "\r" to "\n". *)
Fixpoint univ_newlines (s : string) : string :=
  match s with
  | EmptyString => EmptyString
  | String a s' =>
      if decide (a = cr)
      then String lf (match s' with
                      | String b s'' => if decide (b = lf) then univ_newlines s'' else univ_newlines s'
                      | EmptyString => EmptyString
                      end)
      else String a (univ_newlines s')
  end.
(** The lines of a file, each with its final "\n" (the last line may lack it). *)
Fixpoint file_lines (s : string) : list string :=
  match s with
  | EmptyString => []
  | String a s' => if decide (a = lf) then String a EmptyString :: file_lines s' else cons_hd a (file_lines s')
  end.
(** [open(path, "r")] and [open(path, "rb")]: the lines still to be read; the flag
    says that they are [bytes]. *)
Definition open_r (contents : string) : bool * list string := (false, file_lines (univ_newlines contents)).
Definition open_rb (contents : string) : bool * list string := (true, file_lines contents).
(** [f.readline()] *)
Definition readline (f : list string) : string * list string :=
  match f with [] => (EmptyString, []) | l :: f' => (l, f') end.

(** [int(s)] without surrounding blanks: sign, digits, single underscores between
    digits.  The limit of recent versions on the number of digits is not modelled. *)
Definition digit_val (a : ascii) : option Z :=
  let n := nat_of_ascii a in
  if (48 <=? n) && (n <=? 57) then Some (Z.of_nat n - 48)%Z else None.
Fixpoint int_digits (acc : Z) (after_digit : bool) (s : string) : res Z :=
  match s with
  | EmptyString => if after_digit then Ok acc else Err ValueError
  | String a s' =>
      match digit_val a with
      | Some d => int_digits (10 * acc + d)%Z true s'
      | None => if decide (a = "_"%char) then if after_digit then int_digits acc false s' else Err ValueError
                else Err ValueError
      end
  end.
Definition py_int (s : string) : res Z :=
  match strip s with
  | String a s' =>
      if decide (a = "-"%char) then z ← int_digits 0 false s'; Ok (- z)%Z
      else if decide (a = "+"%char) then int_digits 0 false s'
      else int_digits 0 false (String a s')
  | EmptyString => Err ValueError
  end.

(** ** [csv.reader] with the default dialect and a given delimiter

    Transcribed from CPython's Modules/_csv.c; the limit on the field size is not
    modelled. *)
Inductive csv_mode := StartRecord | StartField | InField | InQuoted | QuoteInQuoted | EatCrnl.
Global Instance csv_mode_eq_dec : EqDecision csv_mode.
Proof. solve_decision. Defined.
(** Mode, fields of the record so far, characters of the current field so far. *)
Definition csv_state : Type := (csv_mode * list string * string)%type.
Definition csv_init : csv_state := (StartRecord, [], EmptyString).
Definition csv_save (m : csv_mode) (s : csv_state) : csv_state := (m, s.1.2 ++ [s.2], EmptyString).
Definition csv_add (m : csv_mode) (c : ascii) (s : csv_state) : csv_state :=
  (m, s.1.2, (s.2 ++ String c EmptyString)%string).
Definition csv_go (m : csv_mode) (s : csv_state) : csv_state := (m, s.1.2, s.2).
Definition is_nl (c : ascii) : bool := bool_decide (c = lf) || bool_decide (c = cr).
Definition csv_start_field (d c : ascii) (s : csv_state) : csv_state :=
  if is_nl c then csv_save EatCrnl s
  else if decide (c = quotec) then csv_go InQuoted s
  else if decide (c = d) then csv_save StartField s
  else csv_add InField c s.
Definition csv_char (d c : ascii) (s : csv_state) : res csv_state :=
  match s.1.1 with
  | StartRecord => Ok (if is_nl c then csv_go EatCrnl s else csv_start_field d c s)
  | StartField => Ok (csv_start_field d c s)
  | InField => Ok (if is_nl c then csv_save EatCrnl s
                   else if decide (c = d) then csv_save StartField s else csv_add InField c s)
  | InQuoted => Ok (if decide (c = quotec) then csv_go QuoteInQuoted s else csv_add InQuoted c s)
  | QuoteInQuoted => Ok (if decide (c = quotec) then csv_add InQuoted c s
                         else if decide (c = d) then csv_save StartField s
                         else if is_nl c then csv_save EatCrnl s else csv_add InField c s)
  | EatCrnl => if is_nl c then Ok s else Err CsvError
  end.
(** The end of a line handed over by the iterator. *)
Definition csv_eol (s : csv_state) : csv_state :=
  match s.1.1 with
  | StartRecord => s
  | StartField | InField | QuoteInQuoted => csv_save StartRecord s
  | InQuoted => s
  | EatCrnl => csv_go StartRecord s
  end.
Fixpoint csv_line (d : ascii) (l : string) (s : csv_state) : res csv_state :=
  match l with
  | EmptyString => Ok (csv_eol s)
  | String c l' => s' ← csv_char d c s; csv_line d l' s'
  end.
(** What successive calls of [next] give: records, ended by StopIteration or by an
    exception.  Lines of type [bytes] are refused. *)
Fixpoint csv_records (d : ascii) (bytes : bool) (s : csv_state) (f : list string) : list (res (list string)) :=
  match f with
  | [] => if decide (s.2 ≠ EmptyString ∨ s.1.1 = InQuoted) then [Ok (s.1.2 ++ [s.2])] else []
  | l :: f' =>
      if bytes then [Err CsvError]
      else match csv_line d l s with
           | Err e => [Err e]
           | Ok s' => if decide (s'.1.1 = StartRecord) then Ok s'.1.2 :: csv_records d bytes csv_init f'
                      else csv_records d bytes s' f'
           end
  end.
Definition csv_reader (d : ascii) (f : bool * list string) : list (res (list string)) :=
  csv_records d f.1 csv_init f.2.
(** [next(rdr)] *)
Definition csv_next (r : list (res (list string))) : res (list string * list (res (list string))) :=
  match r with
  | [] => Err StopIteration
  | Err e :: _ => Err e
  | Ok x :: r' => Ok (x, r')
  end.
