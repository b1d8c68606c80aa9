(** Properties of mdet and minv in terms of finite sums of real numbers. *)
From Coq Require Import Reals Lra Lia.
From mathcomp Require Import ssreflect ssrfun ssrbool eqtype ssrnat seq fintype bigop ssralg matrix.
From Verif Require Import RField RMx QuadFacts.
Import GRing.Theory.
Local Open Scope ring_scope.

Lemma big_bsum n (F : nat -> R) : (\sum_(i < n) F i)%R = bsum n F.
Proof. elim: n => [|n IH]; first by rewrite big_ord0. by rewrite big_ord_recr /= IH bsum_S. Qed.
Definition delta (i j : nat) : R := if Nat.eqb i j then R1 else R0.
Lemma delta_nat i j : delta i j = ((i == j)%:R)%R.
Proof. rewrite /delta. case: (Nat.eqb_spec i j) => [->|H]; first by rewrite eqxx. by case: eqP. Qed.
Lemma minv_ord n A (i j : 'I_n) : minv n A i j = invmx (as_mx n A) i j.
Proof. by rewrite /minv !valK. Qed.
Lemma unit_det n A : mdet n A <> R0 <-> as_mx n A \in unitmx.
Proof. rewrite unitmxE /mdet unitfE. split; [by move/eqP|by move/eqP]. Qed.
Lemma mdet_ext n A B : (forall i j, (i < n)%coq_nat -> (j < n)%coq_nat -> A i j = B i j) -> mdet n A = mdet n B.
Proof. move=> H. rewrite /mdet. congr (\det _). apply/matrixP=> i j. rewrite !mxE. apply: H; by apply/ltP. Qed.
Lemma minv_ext n A B i j : (forall i j, (i < n)%coq_nat -> (j < n)%coq_nat -> A i j = B i j) -> minv n A i j = minv n B i j.
Proof. move=> H. rewrite /minv. have -> : as_mx n A = as_mx n B by apply/matrixP=> a b; rewrite !mxE; apply: H; apply/ltP. by []. Qed.
Lemma minv_l n A i j : mdet n A <> R0 -> (i < n)%coq_nat -> (j < n)%coq_nat -> bsum n (fun k => Rmult (minv n A i k) (A k j)) = delta i j.
Proof.
  move=> /unit_det U /ltP Hi /ltP Hj. have := mulVmx U. move/matrixP/(_ (Ordinal Hi) (Ordinal Hj)). rewrite !mxE delta_nat => <-.
  rewrite -big_bsum. apply: eq_bigr => k _. by rewrite (minv_ord n A (Ordinal Hi) k) mxE.
Qed.
Lemma minv_r n A i j : mdet n A <> R0 -> (i < n)%coq_nat -> (j < n)%coq_nat -> bsum n (fun k => Rmult (A i k) (minv n A k j)) = delta i j.
Proof.
  move=> /unit_det U /ltP Hi /ltP Hj. have := mulmxV U. move/matrixP/(_ (Ordinal Hi) (Ordinal Hj)). rewrite !mxE delta_nat => <-.
  rewrite -big_bsum. apply: eq_bigr => k _. by rewrite (minv_ord n A k (Ordinal Hj)) mxE.
Qed.
(** the place of the i-th of the indices that are left when k is taken away *)
Definition skip (k i : nat) : nat := if Nat.ltb i k then i else S i.
Lemma skip_lift n (k : 'I_n.+1) (i : 'I_n) : skip k i = lift k i :> nat.
Proof. rewrite /skip /= /bump. case: (Nat.ltb_spec i k) => /leP H; by [rewrite leqNgt H|rewrite H]. Qed.
Lemma minv_diag n A k : mdet n.+1 A <> R0 -> (k < n.+1)%coq_nat ->
  Rmult (minv n.+1 A k k) (mdet n.+1 A) = mdet n (fun i j => A (skip k i) (skip k j)).
Proof.
  move=> D /ltP Hk. have U := proj1 (unit_det _ _) D. rewrite (minv_ord _ A (Ordinal Hk) (Ordinal Hk)) /invmx U !mxE.
  match goal with |- Rmult ?a ?b = _ => change (a * b = mdet n (fun i j => A (skip k i) (skip k j))) end.
  rewrite mulrAC mulVf ?mul1r; last by apply/eqP.
  rewrite /cofactor /= -signr_odd addnn odd_double expr0 mul1r /mdet. congr (\det _). apply/matrixP=> i j. rewrite !mxE.
  by rewrite -!(skip_lift n (Ordinal Hk)).
Qed.
Lemma minv_unique n A B : (forall i j, (i < n)%coq_nat -> (j < n)%coq_nat -> bsum n (fun k => Rmult (A i k) (B k j)) = delta i j) ->
  mdet n A <> R0 /\ forall i j, (i < n)%coq_nat -> (j < n)%coq_nat -> minv n A i j = B i j.
Proof.
  move=> H. have E : (as_mx n A *m as_mx n B = 1%:M)%R.
  { apply/matrixP=> i j. rewrite !mxE -delta_nat -H; [|by apply/ltP..]. rewrite -big_bsum. apply: eq_bigr => k _. by rewrite !mxE. }
  have [U _] := mulmx1_unit E. split; first by apply/unit_det. move=> i j /ltP Hi /ltP Hj.
  rewrite (minv_ord n A (Ordinal Hi) (Ordinal Hj)). have -> : invmx (as_mx n A) = as_mx n B by rewrite -[LHS]mulmx1 -E mulmxA mulVmx // mul1mx.
  by rewrite mxE.
Qed.
Lemma mdet_zero n A : mdet n A = R0 -> exists v : nat -> R, (exists i, (i < n)%coq_nat /\ v i <> R0) /\
  forall j, (j < n)%coq_nat -> bsum n (fun i => Rmult (v i) (A i j)) = R0.
Proof.
  move=> /eqP /det0P [v Nz E]. exists (fun i => match insub i with Some i' => v ord0 i' | None => R0 end). split.
  - have [i Hi] : exists i, v ord0 i != 0 by apply/existsP; move: Nz; apply: contraR; rewrite negb_exists => /forallP H; apply/eqP/rowP => i; rewrite mxE; apply/eqP; move: (H i); rewrite negbK.
    exists i. split; first by apply/ltP. rewrite valK. by apply/eqP.
  - move=> j /ltP Hj. move/matrixP: E => /(_ ord0 (Ordinal Hj)). rewrite !mxE => E. rewrite -[RHS]E -big_bsum. apply: eq_bigr => k _. by rewrite valK mxE.
Qed.
Lemma mdet_0 A : mdet 0 A = R1.
Proof. by rewrite /mdet det_mx00. Qed.
Lemma mdet_1 A : mdet 1 A = A 0%N 0%N.
Proof. by rewrite /mdet det_mx11 mxE. Qed.
Lemma mdet_scale n A c : mdet n (fun i j => Rmult c (A i j)) = Rmult (pow c n) (mdet n A).
Proof.
  rewrite /mdet. have -> : as_mx n (fun i j => Rmult c (A i j)) = (c *: as_mx n A)%R by apply/matrixP=> i j; rewrite !mxE.
  rewrite detZ. congr (_ * _)%R. elim: n {A} => [|n IH]; first by []. by rewrite exprS IH.
Qed.
