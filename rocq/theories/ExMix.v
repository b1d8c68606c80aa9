(** Concrete mixtures. *)
From Coq Require Import Reals Lra Lia List Bool Arith.
From Coquelicot Require Import Coquelicot.
From Verif Require Import Base Seg Piecewise PiecewiseSpec Integral IntegralFacts SegInt SegIntSpec Transform TransformSpec FuncSpec ExFunc MixSpec Mix PropMix.
Import List ListNotations.
Open Scope R_scope.

(** 1/3 of a ramp with an atom at 2, 2/3 of a flat piece with an atom at 1 *)
Lemma ex_components : Forall (component (1/1000)) [exP; exU].
Proof.
  repeat apply Forall_cons; try apply Forall_nil; unfold component.
  - destruct exP_smooth as (A & B & C & D & _). auto.
  - destruct exU_smooth as (A & B & C & D & _). auto.
Qed.
Lemma ex_apart : forall c d, In c [exP; exU] -> In d [exP; exU] -> cross_sep (1/1000) c d.
Proof.
  intros c d Hc Hd a m b k Ha Hb. destruct Hc as [<-|[<-|[]]], Hd as [<-|[<-|[]]]; simpl in Ha, Hb;
  repeat destruct Ha as [Ha|Ha]; try discriminate; try tauto; repeat destruct Hb as [Hb|Hb]; try discriminate; try tauto;
  injection Ha as <- _; injection Hb as <- _; auto; right; unfold Rabs; destruct (Rcase_abs _); lra.
Qed.
Lemma ex_mix : exists q, mix_pdf (1/1000) [1/3; 2/3] [exP; exU] = Ok q /\
  forall u v, Rbar_le u v -> pprob (segs q) u v = 1/3 * pprob exP u v + 2/3 * pprob exU u v.
Proof.
  destruct (mix_exact (1/1000) [1/3; 2/3] [exP; exU]) as (q & E & _ & V); auto; try lra; try discriminate; try apply ex_components; try apply ex_apart.
  exists q. split; auto. intros u v UV. rewrite V by auto. unfold mixture_prob. simpl. lra.
Qed.
Lemma ex_mix_uniform : exists q, mix_pdf (1/1000) (repeat (/ INR 2) 2) [exP; exU] = Ok q /\
  forall u v, Rbar_le u v -> uniform_mean 2 5 (fun idx => pprob (nth (nth 3 idx O) [exP; exU] []) u v) = pprob (segs q) u v.
Proof.
  destruct (mix_exact (1/1000) (repeat (/ INR 2) 2) [exP; exU]) as (q & E & _); auto; try lra; try discriminate; try apply ex_components; try apply ex_apart.
  exists q. split; auto. intros u v UV.
  apply (mix_uniform_agrees (1/1000) [exP; exU] q 5 3 u v); auto; try lra; try lia; try apply ex_components; apply ex_apart.
Qed.
Lemma ex_sample : forall a b c d e, mix_rand 2 [1; 0; 1; 1; 0]%nat (fun k m => firstn m (if Nat.eqb k 0 then [a; b] else [c; d; e])) = [c; a; d; e; b].
Proof. reflexivity. Qed.
Lemma ex_range : mix_range [(Finite 0, Finite 2); (Finite 1, p_infty); (Finite (-3), Finite 1)] = Ok (Finite (-3), p_infty).
Proof.
  simpl. destruct (bltP 1 0) as [L|_]; [simpl in L; lra|]. destruct (bltP (-3) 0) as [_|L]; [|exfalso; apply L; simpl; lra].
  destruct (bltP 2 p_infty) as [_|L]; [|exfalso; apply L; exact I]. destruct (bltP p_infty 1) as [L|_]; [simpl in L; tauto|]. reflexivity.
Qed.
