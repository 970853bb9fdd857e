(** Model of treecat/util.py: np_printoptions. *)
From Coq Require Import String.
From Coq Require Import List ZArith.
From Verif Require Import Base.
Import ListNotations.
Open Scope list_scope.

(** numpy's print options: a value for each name. *)
Definition options := list (string * Z).

Definition has (o : options) (k : string) : bool := existsb (fun '(k', _) => String.eqb k k') o.
Definition get (o : options) (k : string) (default : Z) : Z :=
  match find (fun '(k', _) => String.eqb k k') o with Some (_, v) => v | None => default end.

(** numpy: [np.set_printoptions] of keyword arguments, TypeError for an unknown name.  Values that numpy rejects are left out. *)
Definition set_printoptions (kwargs : options) (o : options) : result options :=
  if forallb (fun '(k, _) => has o k) kwargs then Ok (map (fun '(k, v) => (k, get kwargs k v)) o) else Raise TypeError.

(** Python code, as far as it concerns print options. *)
Inductive code :=
| Pass
| Throw (e : exn)
| Set_ (kwargs : options)
| Then (p q : code)
| With (kwargs : options) (body : code)   (* with np_printoptions( ** kwargs): body *)
| Try (p : code).                         (* try: p, except Exception: pass *)

(** util.py:68-74 [np_printoptions]: an exception in the body is raised at the [yield], so that the last line
    is not reached.  The result is the exception, if any, and the options afterwards. *)
Fixpoint run (p : code) (o : options) : option exn * options :=
  match p with
  | Pass => (None, o)
  | Throw e => (Some e, o)
  | Set_ kwargs => match set_printoptions kwargs o with Ok o' => (None, o') | Raise e => (Some e, o) end
  | Then p q => match run p o with (None, o') => run q o' | (Some e, o') => (Some e, o') end
  | With kwargs body =>
    let old := o in
    match set_printoptions kwargs o with
    | Raise e => (Some e, o)
    | Ok o1 =>
      match run body o1 with
      | (Some e, o2) => (Some e, o2)
      | (None, o2) => match set_printoptions old o2 with Ok o3 => (None, o3) | Raise e => (Some e, o2) end
      end
    end
  | Try p => (None, snd (run p o))
  end.

(** util.py:68-74 with the [yield] in a try and the last line in its finally. *)
Fixpoint repaired_run (p : code) (o : options) : option exn * options :=
  match p with
  | Pass => (None, o)
  | Throw e => (Some e, o)
  | Set_ kwargs => match set_printoptions kwargs o with Ok o' => (None, o') | Raise e => (Some e, o) end
  | Then p q => match repaired_run p o with (None, o') => repaired_run q o' | (Some e, o') => (Some e, o') end
  | With kwargs body =>
    let old := o in
    match set_printoptions kwargs o with
    | Raise e => (Some e, o)
    | Ok o1 =>
      let '(x, o2) := repaired_run body o1 in
      match set_printoptions old o2 with Ok o3 => (x, o3) | Raise e => (Some e, o2) end
    end
  | Try p => (None, snd (repaired_run p o))
  end.
