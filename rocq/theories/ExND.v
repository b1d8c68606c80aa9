(** Concrete instances for multivariate functions and products. *)
From Coq Require Import Reals Lra Lia List Bool Arith Sorted Permutation.
From Coquelicot Require Import Coquelicot.
From Verif Require Import Base ND NDSpec NDFacts NDFacts2 NDFacts3 NDMain.
Import List ListNotations.
Open Scope R_scope.

(** the trapezium rule is a homogeneous integration rule whose integrals may be exchanged *)
Definition trap (f : R -> R) (a b : R) : R := (b - a) / 2 * (f a + f b).
Example ex_trap : homogeneous trap /\ fubini trap.
Proof.
  split; [split|].
  - intros f g a b H. unfold trap. rewrite !H. auto.
  - intros c f a b. unfold trap. ring.
  - intros h a b c d. unfold trap. ring.
Qed.
(** so is the exact integral, taken as zero when it does not exist *)
Definition exact_int (f : R -> R) (a b : R) : R := if ClassicalDedekindReals.sig_not_dec (ex_RInt f a b) then RInt f a b else 0.
Lemma exact_yes f a b : ex_RInt f a b -> exact_int f a b = RInt f a b.
Proof. intros H. unfold exact_int. destruct (ClassicalDedekindReals.sig_not_dec _); tauto. Qed.
Lemma exact_no f a b : ~ ex_RInt f a b -> exact_int f a b = 0.
Proof. intros H. unfold exact_int. destruct (ClassicalDedekindReals.sig_not_dec _); tauto. Qed.
Example ex_exact : homogeneous exact_int.
Proof.
  split.
  - intros f g a b H. destruct (Classical_Prop.classic (ex_RInt f a b)) as [E|E].
    + rewrite !exact_yes; auto; [apply RInt_ext; auto|]. eapply ex_RInt_ext; [|exact E]. auto.
    + rewrite !exact_no; auto. intros E'. apply E. eapply ex_RInt_ext; [|exact E']. auto.
  - intros c f a b. destruct (Classical_Prop.classic (ex_RInt f a b)) as [E|E].
    + rewrite !exact_yes; auto; [apply (RInt_scal f a b c E)|apply (ex_RInt_scal f a b c E)].
    + rewrite (exact_no f) by auto. rewrite Rmult_0_r. destruct (Req_dec c 0) as [->|C].
      * rewrite exact_yes.
        -- rewrite (RInt_ext _ (fun _ => 0)) by (intros x _; exact (Rmult_0_l (f x))). rewrite RInt_const. unfold scal, mult. simpl. unfold mult. simpl. ring.
        -- apply (ex_RInt_ext (fun _ => 0)); [intros x _; symmetry; exact (Rmult_0_l (f x))|]. apply ex_RInt_const.
      * apply exact_no. intros E'. apply E. apply (ex_RInt_ext (fun x => scal (/ c) (c * f x))); [intros; unfold scal, mult; simpl; unfold mult; simpl; field; auto|]. apply (ex_RInt_scal (fun x => c * f x) a b (/ c) E').
Qed.
(** two densities and a joint factor: x on [0,1], y on [0,2] *)
Definition exLo : nat -> R := fun _ => 0.
Definition exHi (v : nat) : R := match v with O => 1 | _ => 2 end.
Definition exP : list factor := [FDens (NDF [0%nat] [0] [1] false (fun _ => 1)); FDens (NDF [0; 1]%nat [0; 0] [1; 2] false (fun X => nth 0 X 0 + nth 1 X 0)); FConst 3].
Example ex_wf : Forall (wf_f exLo exHi) exP /\ Forall srt exP /\ occurs 0 exP /\ occurs 1 exP.
Proof.
  splits.
  - repeat constructor; simpl; auto; try discriminate; intuition discriminate.
  - repeat constructor.
  - eexists. split; [left; reflexivity|]. simpl. auto.
  - eexists. split; [right; left; reflexivity|]. simpl. auto.
Qed.
(** eliminating x leaves 3 * integral of (x + y) over [0,1] as a function of y *)
Example ex_elim : exists fs, prod_elim trap exLo exHi exP [0%nat] = Ok fs /\ density fs (fun _ => 1 / 2) = 3 /\ ~ occurs 0 fs.
Proof.
  destruct ex_wf as (A & _ & C & _). destruct (eliminate_one_main trap exLo exHi exP 0 (proj1 ex_trap) A C) as (fs & E & _ & V & O). exists fs. split; auto. split.
  - rewrite V. unfold trap, exLo, exHi, density, exP. cbn [fold_right f_val nd_vars map]. unfold nd_point, post. cbn [nd_a nd_b nd_abs nd_f inside]. unfold upd, in_rng. cbn [Nat.eqb].
    rewrite (proj2 (rle_true 0 0)), (proj2 (rle_true 0 1)), (proj2 (rle_true 1 1)), (proj2 (rle_true 0 (1 / 2))), (proj2 (rle_true (1 / 2) 2)) by lra. cbn [andb nth]. field.
  - intros H. apply O in H. tauto.
Qed.
(** conditioning on x = 1/2: the hypotheses hold and the normalising integral is not zero *)
Example ex_cond : exists fs l, prod_cond trap exLo exHi exP [0%nat] [1 / 2] = Ok fs /\ (forall w, In w l <-> w = 1%nat) /\ density fs (fun _ => 1) = (3 * (1 / 2 + 1)) / (3 * 3).
Proof.
  destruct ex_wf as (A & B & C & _). destruct (condition_one_main trap exLo exHi exP 0 (1 / 2) (proj1 ex_trap) A B C) as (fs & l & Z & E & L & N & ZE & V & _); [unfold exLo, exHi; lra|].
  assert (OC : forall w, In w l <-> w = 1%nat).
  { intros w. rewrite L. split.
    - intros [(g & G & Hw) NV]. simpl in G. destruct G as [<-|[<-|[<-|[]]]]; simpl in Hw; intuition.
    - intros ->. split; [apply ex_wf|discriminate]. }
  assert (LL : l = [1%nat]). { destruct l as [|w [|w' l]]; [exfalso; apply (proj2 (OC 1%nat) eq_refl)|f_equal; apply OC; simpl; auto|]. exfalso. inversion N; subst. assert (w = 1%nat) by (apply OC; simpl; auto). assert (w' = 1%nat) by (apply OC; simpl; auto). subst. simpl in *. tauto. }
  assert (DV : forall y, 0 <= y <= 2 -> density exP (upd (upd (fun _ => 1) 1 y) 0 (1 / 2)) = 3 * (1 / 2 + y)).
  { intros y Y. unfold density, exP. cbn [fold_right f_val nd_vars map]. unfold nd_point, post. cbn [nd_a nd_b nd_abs nd_f inside]. unfold upd, in_rng. cbn [Nat.eqb].
    rewrite (proj2 (rle_true 0 (1 / 2))), (proj2 (rle_true (1 / 2) 1)), (proj2 (rle_true 0 y)), (proj2 (rle_true y 2)) by lra. cbn [andb nth]. ring. }
  exists fs, l. split; auto. split; auto. assert (ZV : Z = 3 * 3).
  { rewrite <- (ZE (fun _ => 1)), LL. cbn [integ_all]. unfold integ1, trap, exLo, exHi. rewrite !DV by lra. field. }
  destruct (V ltac:(lra) (fun _ => 1)) as [-> _]. rewrite ZV. f_equal. rewrite <- DV by lra. rewrite <- !density_val. apply prod_val_ext. intros u _. unfold upd. destruct u as [|[|]]; auto.
Qed.
Example ex_order : StronglySorted lt [0; 1]%nat. Proof. repeat constructor. Qed.
