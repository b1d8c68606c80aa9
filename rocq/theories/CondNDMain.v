(** Main statements about conditional densities of a joint density. *)
From Coq Require Import Reals Lra Lia List Bool Arith Sorted Permutation.
From Verif Require Import Base ND NDSpec NDFacts NDFacts2 NDFacts3 CondND CondNDSpec CondNDFacts CondNDFacts2 CondNDFacts3 CondNDFacts4.
Import List ListNotations.
Open Scope R_scope.

(** C68: the conditional density given variables listed in the order of the joint density is the joint density divided
    by its integral over the other variables: inside the box wherever that integral is not zero, an error where it is,
    zero outside the box.  It integrates to one over the other variables.  The integral is taken in one order [l] of the
    other variables, and in every order when integrals may be exchanged. *)
Lemma cond_density_main :
  forall integ lo hi F cv, homogeneous integ -> wf_nd lo hi F -> sublist cv (nd_vars F) ->
  exists C l, cd_make integ lo hi F cv None = Ok C /\ nd_vars (cd_nd C) = nd_vars F /\ rest_of (nd_vars F) cv l /\
    (fubini integ -> forall l', rest_of (nd_vars F) cv l' -> forall env, integ_all integ lo hi l' (joint lo hi F) env = integ_all integ lo hi l (joint lo hi F) env) /\
    forall env, let Z := integ_all integ lo hi l (joint lo hi F) env in
      (within lo hi (nd_vars F) env -> Z <> 0 -> cd_point lo hi C (map env (nd_vars F)) = Ok (joint lo hi F env / Z)) /\
      (within lo hi (nd_vars F) env -> Z = 0 -> cd_point lo hi C (map env (nd_vars F)) = Err EZeroDiv) /\
      (~ within lo hi (nd_vars F) env -> cd_point lo hi C (map env (nd_vars F)) = Ok 0) /\
      (Z <> 0 -> integ_all integ lo hi l (fun e => num (cd_point lo hi C (map e (nd_vars F)))) env = 1).
Proof.
  intros integ lo hi F cv HI W S. destruct (make_ok integ lo hi HI F cv W S) as (C & M & CN & CP & CV & CM). exists C, (inner (nd_vars F) cv). pose proof (inner_rest (nd_vars F) cv (proj1 W)) as RI.
  split; auto. split; [rewrite CN; auto|]. split; auto. split; [intros FU l' R' env; apply (IA_rest integ lo hi HI F cv); auto|]. intros env. cbv zeta. pose proof (point_ok lo hi C cv env) as H. rewrite CN in H. destruct (H W CP CV) as [A B]. rewrite CM in A. split; [|split; [|split]].
  - intros I Z. rewrite A by auto. destruct (reqP (integ_all integ lo hi (inner (nd_vars F) cv) (joint lo hi F) env) 0); tauto.
  - intros I Z. rewrite A by auto. rewrite Z, (proj2 (req_true 0 0)) by auto. auto.
  - auto.
  - apply mass_ok; auto.
Qed.

(** C68: eliminating some of the other variables gives the conditional density integrated over them; eliminating all
    of them gives one; eliminating a condition variable raises. *)
Lemma cond_eliminate_main :
  forall integ lo hi F cv C vs, homogeneous integ -> wf_nd lo hi F -> sublist cv (nd_vars F) -> cd_make integ lo hi F cv None = Ok C -> sublist vs (nd_vars F) ->
  ((exists v, In v vs /\ In v cv) -> cd_elim integ lo hi C vs = Err ERuntime) /\
  (rest_of (nd_vars F) cv vs -> cd_elim integ lo hi C vs = Ok (inl FOne)) /\
  ((forall v, In v vs -> ~ In v cv) -> (exists v, In v (nd_vars F) /\ ~ In v vs /\ ~ In v cv) -> fubini integ ->
     exists C', cd_elim integ lo hi C vs = Ok (inr C') /\ rest_of (nd_vars F) vs (nd_vars (cd_nd C')) /\
       forall env, (exists l, rest_of (nd_vars F) cv l /\ integ_all integ lo hi l (joint lo hi F) env <> 0) ->
         cd_point lo hi C' (map env (nd_vars (cd_nd C'))) = Ok (integ_all integ lo hi vs (fun e => num (cd_point lo hi C (map e (nd_vars F)))) env)).
Proof.
  intros integ lo hi F cv C vs HI W S M SV. pose proof (sublist_in _ _ SV) as IN. split; [|split].
  - intros H. apply (elim_cond_ok integ lo hi HI F cv C vs W S M IN H).
  - intros [_ H]. apply (elim_all_ok integ lo hi HI F cv C vs W S M IN). intros v V. rewrite H. destruct (in_dec Nat.eq_dec v cv); tauto.
  - intros D E FU. destruct (elim_some_ok integ lo hi HI F cv C vs W S M SV D E) as (C' & A1 & A2 & A3). exists C'. split; auto. split; [rewrite A2; apply without_rest; apply W|].
    intros env (l & L & Z). apply A3; auto. rewrite (IA_rest integ lo hi HI F cv _ l); auto. apply inner_rest. apply W.
Qed.

(** C68: fixing the values of any variables of a joint density divides it by its integral over the remaining ones when
    that is not zero, and raises otherwise; the result integrates to one. *)
Lemma nd_condition_exact_main :
  forall integ lo hi F vs X, homogeneous integ -> wf_nd lo hi F -> NoDup vs -> incl vs (nd_vars F) -> length X = length vs ->
  (forall v x, In (v, x) (combine vs X) -> lo v <= x <= hi v) -> (exists v, In v (nd_vars F) /\ ~ In v vs) ->
  exists Z l, rest_of (nd_vars F) vs l /\ (forall env, integ_all integ lo hi l (fun e => joint lo hi F (set_all e vs X)) env = Z) /\
    (Z = 0 -> nd_cond integ lo hi F vs X = Err EZeroDiv) /\
    (Z <> 0 -> exists G, nd_cond integ lo hi F vs X = Ok (FDens G) /\ wf_nd lo hi G /\ rest_of (nd_vars F) vs (nd_vars G) /\
       forall env, joint lo hi G env = joint lo hi F (set_all env vs X) / Z /\ integ_all integ lo hi l (joint lo hi G) env = 1).
Proof.
  intros integ lo hi F vs X HI W NV IN L RG E. destruct (nd_cond_ok integ lo hi HI F vs X W NV IN L RG E) as (Z & Z1 & Z2 & Z3). exists Z, (inner (nd_vars F) vs). splits; auto; [apply inner_rest, W|].
  intros NZ. destruct (Z3 NZ) as (G & G1 & G2 & G3 & G4). exists G. splits; auto; [rewrite G3; apply without_rest, W|]. intros env. split; auto.
  rewrite (IA_ext integ lo hi HI _ _ (fun e => / Z * joint lo hi F (set_all e vs X))) by (intros e; rewrite G4; unfold Rdiv; ring). rewrite (IA_scal integ lo hi HI), Z1. field. auto.
Qed.

(** C68: fixing a value out of the range of its variable raises. *)
Lemma nd_condition_range_main :
  forall integ lo hi F vs X, wf_nd lo hi F -> incl vs (nd_vars F) -> length X = length vs -> (exists v x, In (v, x) (combine vs X) /\ ~ lo v <= x <= hi v) -> nd_cond integ lo hi F vs X = Err EAssert.
Proof.
  intros integ lo hi F vs X W IN L (v & x & VX & NR). destruct (positions_ok vs (nd_vars F) IN) as (idx & P & _ & _). destruct (positions_lt _ _ _ P) as (_ & _ & LI). unfold nd_cond. rewrite P. cbn [rbind]. replace (Nat.ltb (length X) (length idx)) with false by (symmetry; apply Nat.ltb_ge; lia).
  destruct (in_ranges _ _ _ _ _) eqn:E; auto. exfalso. apply NR. apply (proj1 (ranges_ok lo hi _ vs idx X P L) E v x VX).
Qed.

(** C68: fixing the values of all condition variables, in any order, gives the conditional density at these values. *)
Lemma cond_fix_main :
  forall integ lo hi F cv C vs X, homogeneous integ -> wf_nd lo hi F -> sublist cv (nd_vars F) -> cd_make integ lo hi F cv None = Ok C -> NoDup vs -> (forall v, In v vs <-> In v cv) -> length X = length vs ->
  (forall v x, In (v, x) (combine vs X) -> lo v <= x <= hi v) -> (exists v, In v (nd_vars F) /\ ~ In v cv) ->
  fubini integ -> (exists env l, rest_of (nd_vars F) cv l /\ integ_all integ lo hi l (joint lo hi F) (set_all env vs X) <> 0) ->
  exists G, cd_condition integ lo hi C vs X = Ok (inl (FDens G)) /\ rest_of (nd_vars F) cv (nd_vars G) /\
    forall env, joint lo hi G env = num (cd_point lo hi C (map (set_all env vs X) (nd_vars F))).
Proof.
  intros integ lo hi F cv C vs X HI W S M NV EV L RG E FU (env & l & R & Z). destruct (cond_value_ok integ lo hi HI F cv C vs X W S M NV EV L RG E) as (G & G1 & G2 & G3 & G4).
  - exists env. rewrite (IA_rest integ lo hi HI F cv _ l); auto. apply inner_rest, W.
  - exists G. splits; auto. rewrite G3. apply without_rest, W.
Qed.

(** C68 fails when only a part of the condition variables is fixed: the old marginal density is kept, it has too many
    variables, and every evaluation inside the box raises. *)
Lemma cond_part_refuted_main :
  forall integ lo hi F cv C vs X, homogeneous integ -> wf_nd lo hi F -> sublist cv (nd_vars F) -> cd_make integ lo hi F cv None = Ok C -> NoDup vs -> incl vs (nd_vars F) -> length X = length vs ->
  (forall v x, In (v, x) (combine vs X) -> lo v <= x <= hi v) -> (exists v, In v cv /\ ~ In v vs) -> (exists v, In v cv /\ In v vs) ->
  (exists env l, rest_of (nd_vars F) vs l /\ integ_all integ lo hi l (fun e => joint lo hi F (set_all e vs X)) env <> 0) -> fubini integ ->
  exists C', cd_condition integ lo hi C vs X = Ok (inr C') /\
    forall env, within lo hi (nd_vars (cd_nd C')) env -> cd_point lo hi C' (map env (nd_vars (cd_nd C'))) = Err EIndex.
Proof.
  intros integ lo hi F cv C vs X HI W S M NV IN L RG E1 (w & W1 & W2) (env & l & R & Z) FU.
  assert (EX : ext (fun e => joint lo hi F (set_all e vs X))) by (intros e e' Ee; apply (joint_dep lo hi F W); intros; apply set_ext; auto).
  destruct (cond_part_ok integ lo hi HI F cv C vs X W S M NV IN L RG E1) as (C' & Z' & A1 & A2 & A3 & A4 & A5 & _).
  - exists env. rewrite (IA_perm integ lo hi HI FU _ l); auto; [eapply rest_perm; [apply inner_rest, W|eauto]|apply inner_rest, W].
  - exists C'. split; auto. intros e I. unfold cd_point. rewrite inside_map. rewrite (proj2 (all_inside lo hi e _)) by auto. unfold cd_pdf, f_call. rewrite map_length, A2.
    destruct (make_ok integ lo hi HI F cv W S) as (C0 & M0 & CN & CP & CV & CM). rewrite M in M0. injection M0 as <-. rewrite CV. destruct (positions_lt _ _ _ A3) as (_ & _ & LL). rewrite LL.
    replace (Nat.eqb _ _) with false; auto. symmetry. apply Nat.eqb_neq. assert (H : (length (without cv vs) < length cv)%nat); [|lia]. unfold without. clear - W1 W2. revert W1. induction cv as [|c cv IH]; intros W1; [destruct W1|]. cbn [filter length].
    assert (H : forall l : list nat, (length (filter (fun v => negb (inb v vs)) l) <= length l)%nat) by (induction l; cbn [filter length]; auto; destruct (negb _); cbn [length]; lia).
    destruct W1 as [->|W1]; [rewrite (proj2 (inb_iff w vs)) by auto; cbn [negb]; specialize (H cv); lia|]. specialize (IH W1). destruct (negb _); cbn [length]; lia.
Qed.

Definition exFree : ndfun := NDF [0; 1; 2]%nat [0; 0; 0] [1; 1; 1] false (fun X => nth 0 X 0 + nth 2 X 0).
Definition exOrd : ndfun := NDF [0; 1; 2]%nat [0; 0; 0] [1; 1; 1] false (fun X => 2 / 3 * (nth 0 X 0 + 2 * nth 1 X 0)).
Definition z0 : nat -> R := fun _ => 0.
Definition z1 : nat -> R := fun _ => 1.
Lemma wf_ex f : wf_nd z0 z1 (NDF [0; 1; 2]%nat [0; 0; 0] [1; 1; 1] false f).
Proof. unfold wf_nd. cbn. splits; auto; [repeat constructor; simpl; intuition discriminate|discriminate]. Qed.
Lemma joint_in f x y z env : 0 <= env O <= 1 -> 0 <= env 1%nat <= 1 -> 0 <= env 2%nat <= 1 -> env O = x -> env 1%nat = y -> env 2%nat = z -> joint z0 z1 (NDF [0; 1; 2]%nat [0; 0; 0] [1; 1; 1] false f) env = f [x; y; z].
Proof. intros A B C <- <- <-. unfold joint. cbn [nd_vars nd_abs nd_f forallb map]. unfold z0, z1. rewrite !(proj2 (rle_true _ _)) by lra. auto. Qed.
Lemma const_exact integ f c : linear_exact integ -> (forall x, 0 <= x <= 1 -> f x = c) -> integ f 0 1 = c.
Proof. intros L H. rewrite (L f c 0); [lra|]. intros x X. rewrite H by auto. ring. Qed.

(** C68 fails when another variable is fixed instead: with the joint density x + z of (x, y, z) on the unit cube and
    z as the condition, fixing x = 1 should leave y uniform given z; the code gives the density 4/3 at z = 0. *)
Lemma cond_free_refuted_main :
  forall integ, homogeneous integ -> linear_exact integ ->
  exists lo hi F C C' env, wf_nd lo hi F /\ cd_make integ lo hi F [2%nat] None = Ok C /\ cd_condition integ lo hi C [0%nat] [1] = Ok (inr C') /\ nd_vars (cd_nd C') = [1; 2]%nat /\ lo O <= 1 <= hi O /\ within lo hi [1; 2]%nat env /\
    integ_all integ lo hi [0; 1; 2]%nat (joint lo hi F) env = 1 /\
    integ_all integ lo hi [1%nat] (joint lo hi F) (upd env 0 1) <> 0 /\ joint lo hi F (upd env 0 1) / integ_all integ lo hi [1%nat] (joint lo hi F) (upd env 0 1) = 1 /\
    cd_point lo hi C' (map env [1; 2]%nat) = Ok (4 / 3).
Proof.
  intros integ HI LE. pose proof (wf_ex (fun X => nth 0 X 0 + nth 2 X 0)) as W. fold exFree in W. assert (S : sublist [2%nat] (nd_vars exFree)) by (cbn; auto).
  destruct (make_ok integ z0 z1 HI exFree [2%nat] W S) as (C & M & CN & CP & CV & CM).
  assert (JF : forall x y z env, 0 <= x <= 1 -> 0 <= y <= 1 -> 0 <= z <= 1 -> env O = x -> env 1%nat = y -> env 2%nat = z -> joint z0 z1 exFree env = x + z) by (intros x y z env A B D E1 E2 E3; unfold exFree; rewrite (joint_in _ x y z) by (auto; lra); reflexivity).
  destruct (cond_part_ok integ z0 z1 HI exFree [2%nat] C [0%nat] [1] W S M) as (C' & Z & A1 & A2 & A3 & A4 & A5 & A6 & A7 & A8).
  - repeat constructor; simpl; tauto.
  - intros v [<-|[]]. simpl. auto.
  - auto.
  - intros v x [E|[]]. injection E as <- <-. unfold z0, z1. lra.
  - exists 2%nat. simpl. intuition discriminate.
  - exists (fun _ => 0). cbn [inner without filter nd_vars exFree inb existsb Nat.eqb orb negb rev app integ_all set_all]. unfold integ1. change (z0 1%nat) with 0. change (z1 1%nat) with 1. change (z0 2%nat) with 0. change (z1 2%nat) with 1.
    rewrite (const_exact integ _ (3 / 2) LE); [lra|]. intros y Y. rewrite (LE _ 1 1); [lra|]. intros z Zr. rewrite (JF 1 y z) by (auto; try lra; unfold upd; cbn; auto). lra.
  - assert (ZZ : Z = 3 / 2).
    { rewrite <- (A6 (fun _ => 0)). cbn [inner without filter nd_vars exFree inb existsb Nat.eqb orb negb rev app integ_all set_all]. unfold integ1. change (z0 1%nat) with 0. change (z1 1%nat) with 1. change (z0 2%nat) with 0. change (z1 2%nat) with 1.
      apply (const_exact integ _ (3 / 2) LE). intros y Y. rewrite (LE _ 1 1); [lra|]. intros z Zr. rewrite (JF 1 y z) by (auto; try lra; unfold upd; cbn; auto). lra. }
    assert (VV : nd_vars (cd_nd C') = [1; 2]%nat) by (rewrite A5; reflexivity).
    exists z0, z1, exFree, C, C', (fun _ => 0). splits; auto.
    + unfold z0, z1. lra.
    + unfold z0, z1. lra.
    + intros v V. unfold z0, z1. lra.
    + cbn [integ_all]. unfold integ1. change (z0 O) with 0. change (z1 O) with 1. change (z0 1%nat) with 0. change (z1 1%nat) with 1. change (z0 2%nat) with 0. change (z1 2%nat) with 1.
      rewrite (LE _ (1 / 2) 1); [lra|]. intros z Zr. rewrite (const_exact integ _ (1 / 2 + z) LE); [lra|]. intros y Y. rewrite (LE _ z 1); [lra|]. intros x Xr. rewrite (JF x y z) by (auto; unfold upd; cbn; auto). lra.
    + cbn [integ_all]. unfold integ1. change (z0 1%nat) with 0. change (z1 1%nat) with 1. rewrite (const_exact integ _ 1 LE); [lra|]. intros y Y. rewrite (JF 1 y 0) by (auto; try lra; unfold upd; cbn; auto). lra.
    + cbn [integ_all]. unfold integ1. change (z0 1%nat) with 0. change (z1 1%nat) with 1. rewrite (const_exact integ _ 1 LE); [|intros y Y; rewrite (JF 1 y 0) by (auto; try lra; unfold upd; cbn; auto); lra]. rewrite (JF 1 0 0) by (auto; try lra; unfold upd; cbn; auto). lra.
    + assert (CV' : f_vars (cd_marg C') = [2%nat]) by (rewrite A2; auto). assert (CP' : positions [2%nat] (nd_vars (cd_nd C')) = Ok (cd_cond C')) by (rewrite <- A3; reflexivity).
      destruct (point_ok z0 z1 C' [2%nat] (fun _ => 0) A4 CP' CV') as [PI _]. rewrite <- VV. rewrite PI by (intros v V; unfold z0, z1; lra). rewrite A2, CM, A8, ZZ.
      assert (MV : integ_all integ z0 z1 (inner (nd_vars exFree) [2%nat]) (joint z0 z1 exFree) (fun _ => 0) = 1 / 2).
      { cbn [inner without filter nd_vars exFree inb existsb Nat.eqb orb negb rev app integ_all]. unfold integ1. change (z0 1%nat) with 0. change (z1 1%nat) with 1. change (z0 O) with 0. change (z1 O) with 1.
        rewrite (LE _ 0 1); [lra|]. intros x Xr. rewrite (const_exact integ _ x LE); [lra|]. intros y Y. rewrite (JF x y 0) by (auto; try lra; unfold upd; cbn; auto). lra. }
      rewrite MV. destruct (reqP (1 / 2) 0); [lra|]. f_equal. rewrite (JF 1 0 0) by (auto; try lra; unfold upd; cbn; auto). lra.
Qed.

(** C68 fails for condition variables listed in another order than in the joint density: with the joint density
    2/3 (x + 2 y) of (x, y, z) on the unit cube, the conditional density of z given (y, x) should be one; the code gives
    1/2 at x = 1, y = 0, because the marginal density is called with its arguments exchanged. *)
Lemma cond_order_refuted_main :
  forall integ, homogeneous integ -> linear_exact integ ->
  exists lo hi F C env, wf_nd lo hi F /\ cd_make integ lo hi F [1; 0]%nat None = Ok C /\ within lo hi (nd_vars F) env /\
    integ_all integ lo hi [0; 1; 2]%nat (joint lo hi F) env = 1 /\
    integ_all integ lo hi [2%nat] (joint lo hi F) env <> 0 /\ joint lo hi F env / integ_all integ lo hi [2%nat] (joint lo hi F) env = 1 /\
    cd_point lo hi C (map env (nd_vars F)) = Ok (1 / 2).
Proof.
  intros integ HI LE. pose proof (wf_ex (fun X => 2 / 3 * (nth 0 X 0 + 2 * nth 1 X 0))) as W. fold exOrd in W.
  assert (JF : forall x y z env, 0 <= x <= 1 -> 0 <= y <= 1 -> 0 <= z <= 1 -> env O = x -> env 1%nat = y -> env 2%nat = z -> joint z0 z1 exOrd env = 2 / 3 * (x + 2 * y)) by (intros x y z env A B D E1 E2 E3; unfold exOrd; rewrite (joint_in _ x y z) by (auto; lra); reflexivity).
  destruct (elim_rev_ok integ z0 z1 HI [2%nat] exOrd W) as (g & G1 & G2 & _ & G4 & _); [repeat constructor|repeat constructor|].
  pose proof (elim_vars integ z0 z1 [2%nat] exOrd g (proj1 W) ltac:(repeat constructor) ltac:(repeat constructor) G1) as GV. cbn in GV.
  exists z0, z1, exOrd, (CD exOrd [1; 0]%nat g), (fun v => match v with O => 1 | _ => 0 end). splits; auto.
  - unfold cd_make. cbn [positions position nd_vars exOrd Nat.eqb option_map rbind others length seq filter existsb orb negb rev app]. fold exOrd. rewrite G1. auto.
  - intros v V. unfold z0, z1. destruct v; lra.
  - cbn [integ_all]. unfold integ1. change (z0 O) with 0. change (z1 O) with 1. change (z0 1%nat) with 0. change (z1 1%nat) with 1. change (z0 2%nat) with 0. change (z1 2%nat) with 1.
    apply (const_exact integ _ 1 LE). intros z Zr. rewrite (LE _ (1 / 3) (4 / 3)); [lra|]. intros y Y. rewrite (LE _ (4 / 3 * y) (2 / 3)); [lra|]. intros x Xr. rewrite (JF x y z) by (auto; unfold upd; cbn; auto). lra.
  - cbn [integ_all]. unfold integ1. change (z0 2%nat) with 0. change (z1 2%nat) with 1. rewrite (const_exact integ _ (2 / 3) LE); [lra|]. intros z Zr. rewrite (JF 1 0 z) by (auto; try lra; unfold upd; cbn; auto). lra.
  - cbn [integ_all]. unfold integ1. change (z0 2%nat) with 0. change (z1 2%nat) with 1. rewrite (const_exact integ _ (2 / 3) LE); [|intros z Zr; rewrite (JF 1 0 z) by (auto; try lra; unfold upd; cbn; auto); lra]. rewrite (JF 1 0 0) by (auto; lra). lra.
  - unfold cd_point. cbn [cd_nd]. rewrite inside_map, (proj2 (all_inside z0 z1 _ _)) by (intros v V; unfold z0, z1; destruct v; lra). unfold cd_pdf. cbn [cd_marg cd_cond cd_nd nd_vars exOrd map nth]. fold exOrd.
    unfold f_call. rewrite GV. cbn [length Nat.eqb rbind]. set (e' := fun v : nat => match v with O => 0 | _ => 1 end).
    replace (match g with FDens F => nd_point F [0; 1] | FConst c => c | FOne => 1 end) with (f_val g e') by (destruct g; cbn [f_vars] in GV; [cbn [f_val]; rewrite GV; auto|discriminate|discriminate]).
    rewrite G4. rewrite (IA_ext integ z0 z1 HI _ _ (joint z0 z1 exOrd)) by (intros; symmetry; apply joint_val; auto). cbn [map nth nd_vars exOrd integ_all]. fold exOrd. unfold integ1. change (z0 2%nat) with 0. change (z1 2%nat) with 1.
    rewrite (const_exact integ _ (4 / 3) LE) by (intros z Zr; rewrite (JF 0 1 z) by (auto; try lra; unfold upd; cbn; auto); lra). destruct (reqP (4 / 3) 0); [lra|]. f_equal.
    change [1; 0; 0] with (map (fun v : nat => match v with O => 1 | _ => 0 end) (nd_vars exOrd)). change (nd_point exOrd (map ?e (nd_vars exOrd))) with (f_val (FDens exOrd) e). rewrite <- (joint_val z0 z1) by auto. rewrite (JF 1 0 0) by (auto; lra). lra.
Qed.
