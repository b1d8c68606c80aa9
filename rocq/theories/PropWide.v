(** Property theorems (Wide). Proofs are in WideMain.v and the files it imports. *)
From Coq Require Import Reals ZArith Lra Lia List Bool Sorted.
From Coquelicot Require Import Coquelicot.
From Verif Require Import Base Piecewise PiecewiseFacts2 Wide WideSpec.
From Verif Require Import WideMain.
Import List ListNotations.
Open Scope R_scope.

(** C51: for finite ends the intervals integrated start at a, end at b, are nonempty and consecutive. *)
Theorem wide_tiles :
  forall (w a b : R), 1 < w -> a < b -> tiles a b (wide_intervals w a b).
Proof. exact wide_tiles_main. Qed.
Print Assumptions wide_tiles.

(** C51: an interval not touching or crossing zero is cut so that the ends of each part differ at most by the factor
    wide_cond. *)
Theorem wide_ratio :
  forall (w a b u v : R), 1 < w -> (0 < a < b -> In (u, v) (wide_intervals w a b) -> v / u <= w) /\
  (a < b < 0 -> In (u, v) (wide_intervals w a b) -> u / v <= w).
Proof. exact wide_ratio_main. Qed.
Print Assumptions wide_ratio.

(** C51: so the sum of the exact integrals over the parts is the integral over the interval. *)
Theorem wide_integral :
  forall f (w a b : R), 1 < w -> a < b -> ex_RInt f a b -> integrate_wide (RInt f) w a b = RInt f a b.
Proof. exact wide_integral_main. Qed.
Print Assumptions wide_integral.

(** C52: the elements returned are elements of the input, in increasing order, any two finite ones further apart
    than eps relative to the larger one (in the order), and infinite inputs are kept. *)
Theorem epsunique_separated :
  forall eps tab, StronglySorted Rbar_lt (epsunique eps tab) /\
  (forall x, In x (epsunique eps tab) -> In x tab) /\
  (forall u v : R, In (Finite u) (epsunique eps tab) -> In (Finite v) (epsunique eps tab) -> u < v -> eps < (v - u) / Rmax 1 (Rabs v)) /\
  (forall x, In x tab -> is_finite x \/ In x (epsunique eps tab)).
Proof. exact epsunique_separated_main. Qed.
Print Assumptions epsunique_separated.

(** C52: an element dropped is close to the previous distinct element of the input. *)
Theorem epsunique_dropped :
  forall eps tab (v : R), In (Finite v) tab -> In (Finite v) (epsunique eps tab) \/
  exists u : R, In (Finite u) tab /\ u < v /\ (v - u) / Rmax 1 (Rabs v) <= eps /\ forall z : R, In (Finite z) tab -> z <= u \/ v <= z.
Proof. exact epsunique_dropped_main. Qed.
Print Assumptions epsunique_dropped.

(** C52 (finding): nevertheless a whole chain of inputs can be dropped, however long: the last one is then far from
    everything returned. *)
Theorem epsunique_chain_refuted :
  exists eps tab (v : R), 0 < eps /\ In (Finite v) tab /\ forall u : R, In (Finite u) (epsunique eps tab) -> 3 * eps < Rabs (v - u) / Rmax 1 (Rabs v).
Proof. exact epsunique_chain_refuted_main. Qed.
Print Assumptions epsunique_chain_refuted.

(** C52: break points: the positions returned are input positions more than eps apart, every input position is within
    eps to the right of a returned one, which carries its flags, and a flag of a returned one comes from an input
    within eps. *)
Theorem unique_breakpoints_exact :
  forall eps l, 0 <= eps -> StronglySorted (fun x y => fst x <= fst y) l ->
  let r := unique_breakpoints eps l in
  StronglySorted (fun x y => fst x + eps < fst y) r /\
  (forall x, In x r -> exists y, In y l /\ fst y = fst x) /\
  (forall x, In x l -> exists y, In y r /\ fst y <= fst x <= fst y + eps /\ or4 (snd x) (snd y) = snd y) /\
  (forall y k, In y r -> or4 k (snd y) = snd y ->
     k = (true, false, false, false) \/ k = (false, true, false, false) \/ k = (false, false, true, false) \/ k = (false, false, false, true) ->
     exists x, In x l /\ fst y <= fst x <= fst y + eps /\ or4 k (snd x) = snd x).
Proof. exact unique_breakpoints_exact_main. Qed.
Print Assumptions unique_breakpoints_exact.
