(** Python strings as used by treecat/format.py.  A string is a Coq [string]:
    its characters are the code points 0 to 255 (Latin-1).  Strings with
    larger code points are not modelled. *)
From Coq Require Import String Ascii.
From Coq Require Import List Arith NArith ZArith Bool.
From Verif Require Import Base.
Import ListNotations.
Open Scope nat_scope.

(** [c.isspace()], which is also what [\s] matches in a str pattern. *)
Definition is_space (c : ascii) : bool :=
  let n := nat_of_ascii c in
  ((9 <=? n) && (n <=? 13)) || ((28 <=? n) && (n <=? 32)) || (n =? 133) || (n =? 160).

(** [c.lower()] of one Latin-1 character: A-Z and the accented capitals. *)
Definition is_upper (c : ascii) : bool :=
  let n := nat_of_ascii c in
  ((65 <=? n) && (n <=? 90)) || ((192 <=? n) && (n <=? 222) && negb (n =? 215)).
Definition lower_char (c : ascii) : ascii :=
  if is_upper c then ascii_of_nat (nat_of_ascii c + 32) else c.

(** [s.lower()]. *)
Fixpoint lower (s : string) : string :=
  match s with EmptyString => EmptyString | String c t => String (lower_char c) (lower t) end.

(** [s.lstrip()]. *)
Fixpoint lstrip (s : string) : string :=
  match s with
  | EmptyString => EmptyString
  | String c t => if is_space c then lstrip t else s
  end.

(** [s.rstrip()]. *)
Fixpoint rstrip (s : string) : string :=
  match s with
  | EmptyString => EmptyString
  | String c t => match rstrip t with
                  | EmptyString => if is_space c then EmptyString else String c EmptyString
                  | t' => String c t'
                  end
  end.

(** [s.strip()]. *)
Definition strip (s : string) : string := rstrip (lstrip s).

(** [re.sub(r'\s+', ' ', s)]; [sp] says that the previous character was a space. *)
Fixpoint collapse_from (sp : bool) (s : string) : string :=
  match s with
  | EmptyString => EmptyString
  | String c t =>
    if is_space c then (if sp then collapse_from true t else String " "%char (collapse_from true t))
    else String c (collapse_from false t)
  end.
Definition collapse (s : string) : string := collapse_from false s.

(** format.py:38-41 [NA_STRINGS] and 152-154 [normalize_string]. *)
Definition normalize_string (s : string) : string :=
  let s := collapse (lower (strip s)) in
  if String.eqb s "null"%string then EmptyString
  else if String.eqb s "none"%string then EmptyString
  else s.

(** The value of a decimal digit. *)
Definition digit (c : ascii) : option Z :=
  let n := nat_of_ascii c in
  if (48 <=? n) && (n <=? 57) then Some (Z.of_nat n - 48)%Z else None.

(** Decimal digits, with single underscores allowed between them; [us] says
    that an underscore may come now, i.e. that the previous character was a digit. *)
Fixpoint digits_from (us : bool) (acc : Z) (s : string) : option Z :=
  match s with
  | EmptyString => if us then Some acc else None
  | String c t =>
    match digit c with
    | Some d => digits_from true (10 * acc + d)%Z t
    | None => if us && Ascii.eqb c "_"%char then digits_from false acc t else None
    end
  end.

(** [int(s)] for a string (Python 3.6 and later): surrounding blanks, a sign and
    decimal digits.  [None] stands for ValueError. *)
Definition int_of_str (s : string) : option Z :=
  match strip s with
  | String "-"%char t => option_map Z.opp (digits_from false 0%Z t)
  | String "+"%char t => digits_from false 0%Z t
  | t => digits_from false 0%Z t
  end.
