(** What a normalised string looks like. *)
From Coq Require Import String Ascii.
From Coq Require Import List Arith ZArith.
Import ListNotations.

(** The Latin-1 characters that Python calls white space, and its capitals. *)
Definition white (c : ascii) : Prop := In (nat_of_ascii c) [9; 10; 11; 12; 13; 28; 29; 30; 31; 32; 133; 160].
Definition capital (c : ascii) : Prop :=
  65 <= nat_of_ascii c <= 90 \/ (192 <= nat_of_ascii c <= 222 /\ nat_of_ascii c <> 215).

(** No capitals, no white space but single blanks between other characters. *)
Definition tidy (s : string) : Prop := forall i c, String.get i s = Some c ->
  ~ capital c /\
  (white c -> c = " "%char /\ i <> 0 /\ exists d, String.get (S i) s = Some d /\ ~ white d).

Definition white_dec (c : ascii) : {white c} + {~ white c} := in_dec Nat.eq_dec _ _.

(** The maximal runs of characters that are not white space. *)
Fixpoint words (s : string) : list string :=
  match s with
  | EmptyString => []
  | String c t =>
    if white_dec c then words t
    else match t with
         | EmptyString => [String c EmptyString]
         | String d _ => if white_dec d then String c EmptyString :: words t
                         else match words t with w :: ws => String c w :: ws | [] => [String c EmptyString] end
         end
  end.

(** A letter and its capital: 32 code points apart. *)
Definition lowered (c : ascii) : ascii :=
  if orb (andb (65 <=? nat_of_ascii c) (nat_of_ascii c <=? 90))
         (andb (andb (192 <=? nat_of_ascii c) (nat_of_ascii c <=? 222)) (negb (nat_of_ascii c =? 215)))
  then ascii_of_nat (nat_of_ascii c + 32) else c.
Fixpoint lowercase (s : string) : string :=
  match s with EmptyString => EmptyString | String c t => String (lowered c) (lowercase t) end.

(** An integer as Python reads it: decimal digits, single underscores between
    them, a sign before them, white space around it. *)
Definition digit_char (d : nat) : string := String (ascii_of_nat (48 + d)) EmptyString.
Inductive digits : string -> Z -> Prop :=
| digits_one d : d < 10 -> digits (digit_char d) (Z.of_nat d)
| digits_more s z d : digits s z -> d < 10 -> digits (s ++ digit_char d) (10 * z + Z.of_nat d)
| digits_under s z d : digits s z -> d < 10 -> digits (s ++ "_" ++ digit_char d) (10 * z + Z.of_nat d).
Inductive signed : string -> Z -> Prop :=
| signed_plain s z : digits s z -> signed s z
| signed_plus s z : digits s z -> signed ("+" ++ s) z
| signed_minus s z : digits s z -> signed ("-" ++ s) (- z).
Definition all_white (s : string) : Prop := forall i c, String.get i s = Some c -> white c.
Definition written_integer (s : string) (z : Z) : Prop :=
  exists a w b, s = (a ++ w ++ b)%string /\ all_white a /\ all_white b /\ signed w z.
