(** What the logarithm of the gamma function has to be. *)
From Coq Require Import Reals List Bool Arith.
From Coquelicot Require Import Coquelicot.
From Verif Require Import Base.
Import List ListNotations.
Open Scope R_scope.

(** 0, -1, -2, ... *)
Definition is_pole (x : R) : Prop := exists n : nat, x = - INR n.

(** the functional equation of the gamma function from [lo] on, away from its poles, where it has no zero *)
Definition gamma_like (lo : R) (G : R -> R) : Prop :=
  G 2 = 1 /\ (forall x, lo <= x -> ~ is_pole x -> G (x + 1) = x * G x) /\ (forall x, 2 <= x < 3 -> 0 < G x).
(** the reflection formula *)
Definition reflection (G : R -> R) : Prop := forall q, ~ is_pole q -> ~ is_pole (- q) -> G q * G (- q) * (q * sin (PI * q)) = - PI.

(** the value of a polynomial, highest coefficient first *)
Definition poly (l : list R) (x : R) : R :=
  sumR (map (fun i => nth i l 0 * x ^ (length l - 1 - i)) (seq 0 (length l))).

(** five terms of Stirling's series, with the constant ln(2 pi)/2 *)
Definition stirling (x : R) : R :=
  (x - 1 / 2) * ln x - x + ln (2 * PI) / 2 +
  (1 / 12 - 1 / (360 * x ^ 2) + 1 / (1260 * x ^ 4) - 1 / (1680 * x ^ 6) + 1 / (1188 * x ^ 8)) / x.
