(** Model: operations on sequences of i.i.d. variables (stats/iid_ops.py). *)
From Coq Require Import Reals ZArith List.
From Verif Require Import Base.
Import List ListNotations.
Open Scope R_scope.

(** bin(n)[2:]: the binary digits, most significant first; "0" for zero *)
Fixpoint pbits (p : positive) (acc : list bool) : list bool :=
  match p with xH => true :: acc | xO q => pbits q (false :: acc) | xI q => pbits q (true :: acc) end.
Definition bin_digits (n : N) : list bool := match n with N0 => [false] | Npos p => pbits p [] end.

Section Iid.
Variable A : Type.
(** the operation may look at the global flag params.general.warn_on_dependent, and may raise *)
Variable op : bool -> A -> A -> res A.

(** _int_exp (iid_ops.py:14-25); None is returned for n = 0 *)
Fixpoint int_exp_loop (w : bool) (x : A) (r : option A) (bs : list bool) : res (option A) :=
  match bs with
  | [] => Ok r
  | b :: bs' =>
      rbind (match r with Some v => rmap Some (op w v v) | None => Ok None end) (fun r1 =>
      rbind (if b then match r1 with Some v => rmap Some (op w v x) | None => Ok (Some x) end else Ok r1) (fun r2 =>
      int_exp_loop w x r2 bs'))
  end.
Definition int_exp (w : bool) (x : A) (n : N) : res (option A) := int_exp_loop w x None (bin_digits n).

(** _int_exp_all (iid_ops.py:26-32): the list under construction, without its unused 0th entry;
    entry i is read at position i-1 *)
Fixpoint int_exp_all_loop (w : bool) (l : list A) (i : nat) (todo : nat) : res (list A) :=
  match todo with
  | O => Ok l
  | S m =>
      match nth_error l (i / 2 - 1), nth_error l (i - i / 2 - 1) with
      | Some u, Some v => rbind (op w u v) (fun r => int_exp_all_loop w (l ++ [r]) (S i) m)
      | _, _ => Err EIndex
      end
  end.
Definition int_exp_all (w : bool) (x : A) (n : nat) : res (list A) :=
  match n with
  | O => Err EIndex (* res[1] = x on a one element list *)
  | S m => int_exp_all_loop w [x] 2 m
  end.

(** iid_op (iid_ops.py:34-42): the flag is switched off, the work done, the flag put back; when the
    work raises, the assignment that puts it back is not reached.  Result: the flag afterwards and the value. *)
Definition iid_op (flag : bool) (x : A) (n : N) : bool * res (option A) :=
  match int_exp false x n with
  | Ok y => (flag, Ok y)
  | Err e => (false, Err e)
  end.
Definition iid_op_all (flag : bool) (x : A) (n : nat) : bool * res (list A) :=
  match int_exp_all false x n with
  | Ok y => (flag, Ok y)
  | Err e => (false, Err e)
  end.

(** iid_average (iid_ops.py:115-122) and iid_average_geom (127-131) with all=True; divn a k stands for
    a / k, root a n for a ** (1.0/n) *)
Variable divn : A -> nat -> A.
Variable root : A -> nat -> A.
Definition iid_average_all (flag : bool) (x : A) (n : nat) : bool * res (list A) :=
  let (f, r) := iid_op_all flag x n in
  (f, rmap (fun l => map (fun ia => divn (snd ia) (fst ia + 1)) (combine (seq 0 (length l)) l)) r).
Definition iid_average_geom_all (flag : bool) (x : A) (n : nat) : bool * res (list A) :=
  let (f, r) := iid_op_all flag x n in
  (f, rmap (map (fun a => root a n)) r).
End Iid.
