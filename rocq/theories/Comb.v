(** Model: combinatorial coefficients and the discrete laws built from recurrences. *)
From Coq Require Import Reals ZArith List.
From Verif Require Import Base.
Import List ListNotations.
Open Scope R_scope.

(** binomial_coeff (utils.py:530-537); n and k are integers, division is true division *)
Definition binomial_coeff (n k : Z) : R :=
  let k' := if (n - k <? k)%Z then (n - k)%Z else k in
  fold_left (fun c i => c * IZR (n - Z.of_nat i) / INR (i + 1)) (seq 0 (Z.to_nat k')) 1.

(** multinomial_coeff (utils.py:539-548): c and the running j *)
Definition multi_step (n : Z) (st : R * Z) (i : nat) : R * Z :=
  (fst st * IZR (n - snd st) / INR (i + 1), (snd st + 1)%Z).
Definition zsum (l : list Z) : Z := fold_right Z.add 0%Z l.
Definition multinomial_coeff (n : Z) (ki : list Z) : res R :=
  if (zsum ki =? n)%Z then
    Ok (fst (fold_left (fun st k => fold_left (multi_step n) (seq 0 (Z.to_nat k)) st) ki (1, 0%Z)))
  else Err EAssert.

(** BinomialDistr.__init__ (standard_distr.py:963-979): the list of (xi, pi) given to DiscreteDistr.
    p / q raises when q = 0. *)
Fixpoint binom_loop (n : nat) (pq P : R) (i : nat) (todo : nat) : list (R * R) :=
  match todo with
  | O => []
  | S m => let P' := P * (INR n - INR i) / (INR i + 1) * pq in
           (INR i + 1, P') :: binom_loop n pq P' (S i) m
  end.
Definition binomial_pairs (n : nat) (p : R) : res (list (R * R)) :=
  let q := 1 - p in
  if req q 0 then Err EZeroDiv
  else Ok ((0, q ^ n) :: binom_loop n (p / q) (q ^ n) 0 n).

(** PoissonDistr.__init__ (standard_distr.py:937-957): the loop runs while 1 - S >= trunk_eps; fuel
    stands for the number of iterations the caller waits, None: still running. *)
Fixpoint poisson_loop (fuel : nat) (lam eps k P S : R) : option (list (R * R)) :=
  if rle eps (1 - S) then
    match fuel with
    | O => None
    | Datatypes.S f =>
        let k' := k + 1 in
        let P' := P * lam / k' in
        match poisson_loop f lam eps k' P' (S + P') with
        | Some l => Some ((k, P) :: l)
        | None => None
        end
    end
  else Some [(k, P)].
Definition poisson_pairs (fuel : nat) (lam eps : R) : option (list (R * R)) :=
  poisson_loop fuel lam eps 0 (exp (- lam)) (exp (- lam)).

(** TruncDiscreteFunDistr.__init__ (standard_distr.py:915-932): values of fun are collected until the
    sum is within trunk_eps of one, then divided by the sum *)
Fixpoint trunc_loop (fuel : nat) (fn : R -> R) (eps k S : R) : option (list (R * R) * R) :=
  if rle eps (Rabs (S - 1)) then
    match fuel with
    | O => None
    | Datatypes.S f =>
        match trunc_loop f fn eps (k + 1) (S + fn k) with
        | Some (l, tot) => Some ((k, fn k) :: l, tot)
        | None => None
        end
    end
  else Some ([], S).
Definition trunc_pairs (fuel : nat) (fn : R -> R) (eps : R) : option (list (R * R)) :=
  match trunc_loop fuel fn eps 0 0 with
  | Some (l, tot) => Some (map (fun xp => (fst xp, snd xp / tot)) l)
  | None => None
  end.

(** the function iid_order_stat (stats/iid_ops.py:52-59) builds, at a point where pdf and cdf have the
    values f and F *)
Definition order_stat_fun (n k : nat) (f F : R) : R :=
  INR k * binomial_coeff (Z.of_nat n) (Z.of_nat k) * f * (F ^ (k - 1) * (1 - F) ^ (n - k)).
(** iid_unknown (stats/iid_ops.py:60-66): the average of the order statistics k..n *)
Definition unknown_fun (n k : nat) (f F : R) : R :=
  1 / (1 + INR n - INR k) * fold_left (fun s i => s + order_stat_fun n i f F) (seq k (n + 1 - k)) 0.
