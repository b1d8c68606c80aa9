(** Concrete instances for the theorems in PropConv.v. *)
From Coq Require Import Reals Lra Lia List Arith Bool.
From Verif Require Import Base Conv ConvSpec PropConv.
Import List ListNotations.
Open Scope R_scope.

Definition exPar : mpar := MPar (1/10) (1/10) 2 3 (3/4) false.
(** errors 1, 1/2, 1/4, ... around the value 2 *)
Definition exAtt (i : nat) : R * R * nat := ((1/2) ^ i, 2, i).
Lemma exAtt_nonneg i : 0 <= e_ae (exAtt i).
Proof. unfold e_ae, exAtt; simpl. apply pow_le. lra. Qed.
Example ex_monitor_terminates : exists n, forall fuel, (n <= fuel)%nat -> exists m r, mon_run exPar exAtt 0 fuel mon_init = Ok (m, r) /\ r <> Continue.
Proof. apply monitor_terminates; simpl; try lra; auto using exAtt_nonneg. Qed.
(** it stops at the fourth attempt, whose error is 1/8 < 2 * reltol *)
Example ex_monitor_stops : exists m, mon_run exPar exAtt 0 10 mon_init = Ok (m, Converged) /\ length (hist m) = 4%nat.
Proof.
  destruct (monitor_stops nat exPar exAtt 10) as (m & r & n & H1 & H2 & H3 & H4 & H5); auto using exAtt_nonneg; [simpl; lra|].
  assert (B : forall j, (1 <= j)%nat -> within (1/10) (1/10) (false = true) (fun i => e_ae (exAtt i)) (fun i => e_y (exAtt i)) (j - 1) -> (4 <= j)%nat).
  { intros j Hj (Hw & _). unfold e_ae, e_y, exAtt in Hw; cbn [fst snd] in Hw. rewrite Rabs_pos_eq in Hw by lra.
    destruct j as [|[|[|[|j]]]]; try lia; simpl in Hw; exfalso; destruct Hw; lra. }
  assert (LI : forall j, last_improved (3/4) (fun i => e_ae (exAtt i)) j = (j - 1)%nat).
  { induction j; cbn [last_improved]; auto. rewrite IHj. unfold e_ae, exAtt; cbn [fst snd]. destruct j; simpl; [destruct (Rlt_dec _ _); auto|].
    rewrite Nat.sub_0_r. pose proof (pow_lt (1/2) j ltac:(lra)). destruct (Rlt_dec _ _) as [|N]; auto. exfalso. apply N. lra. }
  assert (L : forall j, (1 <= j)%nat -> ~ stalled (3/4) (fun i => e_ae (exAtt i)) 2 3 j).
  { intros j Hj (_ & P). unfold idle in P. rewrite LI in P. destruct (Nat.eqb_spec (j - 1) 0); lia. }
  assert (G5 : within (1/10) (1/10) (false = true) (fun i => e_ae (exAtt i)) (fun i => e_y (exAtt i)) 3).
  { split; [|discriminate]. right. unfold e_ae, e_y, exAtt; simpl. rewrite Rabs_pos_eq; lra. }
  cbn [abstol reltol force_nonzero ratio quit_iter quit_no exPar] in *. change (Nat.max 2 2) with 2%nat in *.
  assert (N : (n <= 4)%nat). { destruct (le_lt_dec n 4); auto. destruct (H4 4%nat) as (X & _); [lia|]. exfalso. apply X. exact G5. }
  destruct r.
  - exists m. split; auto. rewrite H2, map_length, seq_length. destruct H5 as (N1 & W5). specialize (B n N1 W5). lia.
  - destruct H5 as (N1 & _ & S5). exfalso. apply (L n); auto.
  - destruct H5 as (-> & _). lia.
Qed.
(** without progress it gives up after three rounds and returns the first of the equal attempts *)
Example ex_monitor_stalls : exists m, mon_run exPar (fun i => (1, 2, i)) 0 10 mon_init = Ok (m, NotConverged) /\ length (hist m) = 3%nat.
Proof.
  assert (T : tol_met exPar 1 2 = false).
  { unfold tol_met, exPar; cbn [abstol reltol force_nonzero]. rewrite Rabs_pos_eq, Rmax_right by lra. destruct (rleP 1 (2 * (1/10))); [lra|auto]. }
  assert (Q : rlt 1 (3/4 * 1) = false) by (destruct (rltP 1 (3/4 * 1)); [lra|auto]).
  assert (ST : forall h c k, (1 <= length h)%nat -> nth_error h 0 = Some (1, 2, 0%nat) ->
     mon_test exPar (mon_add (Mon h false k 0) (1, 2, c)) = (Mon (h ++ [(1, 2, c)]) false (k + 1) 0, Ok (if (2 <=? length h + 1)%nat && (3 <=? k + 1)%nat then NotConverged else Continue))).
  { intros h c k L0 N0. unfold mon_test, mon_add. cbn [hist converged no_impr last_good]. rewrite app_length. cbn [length].
    replace (nth_error (h ++ [(1, 2, c)]) (length h + 1 - 1)) with (Some (1, 2, c)) by (rewrite nth_error_app2 by lia; replace (length h + 1 - 1 - length h)%nat with 0%nat by lia; auto).
    unfold e_ae, e_y; cbn [fst snd]. rewrite T.
    replace (nth_error (h ++ [(1, 2, c)]) 0) with (Some (1, 2, 0%nat)) by (rewrite nth_error_app1 by lia; auto). cbn [fst snd ratio exPar]. rewrite Q. reflexivity. }
  assert (S0 : mon_test exPar (mon_add mon_init (1, 2, 0%nat)) = (Mon [(1, 2, 0%nat)] false 1 0, Ok Continue)).
  { unfold mon_test, mon_add. cbn [hist mon_init app length nth_error Nat.sub]. unfold e_ae, e_y; cbn [fst snd]. rewrite T. cbn [last_good mon_init nth_error fst snd ratio exPar]. rewrite Q. reflexivity. }
  cbn [mon_run]. rewrite S0. rewrite ST by (simpl; auto). cbn [length Nat.add Nat.leb andb].
  rewrite ST by (simpl; auto). cbn [length Nat.add Nat.leb andb app]. eexists. split; reflexivity.
Qed.
Example ex_monitor_result : exists k n, mon_result 1000 (3/4) exPar exAtt 3 = Ok (exAtt k) /\ (k < n <= 3)%nat.
Proof.
  destruct (monitor_result nat 1000 (3/4) exPar exAtt 3) as (k & n & H1 & H2 & _); auto using exAtt_nonneg; simpl; try lra. eauto.
Qed.
