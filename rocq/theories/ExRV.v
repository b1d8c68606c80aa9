(** Concrete instances for the theorems about random-variable objects. *)
From Coq Require Import Reals Lra Lia List Bool Arith.
From Coquelicot Require Import Coquelicot.
From Verif Require Import Base ND NDSpec Models ModelsSpec RV RVSpec RVFacts RVFacts2 RVFacts3 RVFacts4 RVFacts5 RVMain.
Import List ListNotations.
Open Scope R_scope.

(** X on [0, 1], Y on [1, 2] *)
Definition exH : heap := ([] ++ [on 0 1 false 0]) ++ [on 1 2 false 1].
Example exH_built : built exH.
Proof. repeat (apply built_base; [|reflexivity]). constructor. Qed.
Example exH_wf : wf_heap exH /\ named exH.
Proof. apply built_objects_main; [apply exH_built|]. intros [|[|[|i]]] c E K; cbn in E; try discriminate E; injection E as <-; auto. Qed.
Definition nn (h : heap) (i : nat) : bool := true.

(** 3 / X ** 2.5 is built, and has the value it should; X / 0 raises *)
Example ex_pow : exists h v, num_op nn NPow true exH 0 (5 / 2) = Ok (h, v) /\ pvalue h (fun _ => / 2) v (Rpower (/ 2) (5 / 2)).
Proof.
  destruct (num_op nn NPow true exH 0 (5 / 2)) as [[h v]|e] eqn:E.
  - exists h, v. split; auto. destruct exH_wf as (W & _). destruct (number_operators_main nn NPow true exH 0 (5 / 2) h v W E) as (_ & _ & H). apply (H _ (/ 2)); [eapply (val_base _ (fun _ => / 2) 0%nat); reflexivity|]. cbn. left. split; [lra|reflexivity].
  - exfalso. destruct exH_wf as (W & _). apply number_operators_fail_main in E; auto; [|cbn; lia]. destruct E as [(F & _)|[(_ & _ & _ & [F|(F & _)])|(_ & F & _)]]; discriminate.
Qed.
Example ex_div0 : num_op nn NDiv true exH 1 0 = Err EZeroDiv.
Proof. destruct exH_wf as (W & _). apply number_operators_fail_main; auto; cbn; auto; lia. Qed.

(** (X + Y) * X and Y / (X + Y) have correct ranges *)
Definition exS : heap := exH ++ [Cell (KBin OSum 0 1) [0; 1]%nat true true (Some (Finite (0 + 1))) (Some (Finite (1 + 2))) None (EAdd (EVar 0) (EVar 1)) 2].
Example exS_is : new_bin exH OSum 0 1 true = Ok (exS, 2%nat).
Proof. reflexivity. Qed.
Example exS_built : built exS.
Proof. eapply built_bin; [apply exH_built|apply exS_is]. Qed.
Example ex_range : exists h i c, new_bin exS ODiv 1 2 true = Ok (h, i) /\ built h /\ ranged h i /\ nth_error h i = Some c /\
  forall w, 0 <= w 0%nat <= 1 -> 1 <= w 1%nat <= 2 -> forall x, value h w i x -> in_range (range_of c) x.
Proof.
  destruct (new_bin exS ODiv 1 2 true) as [[h i]|] eqn:N; [|discriminate]. pose proof (built_bin _ _ _ _ _ _ _ exS_built N) as B.
  apply new_bin_inv in N as (c1 & c2 & G1 & G2 & -> & ->). injection G1 as <-. injection G2 as <-. eexists _, _, _. split; [reflexivity|]. split; [exact B|].
  match type of B with built (exS ++ [?x]) => set (d := x) in * end.
  assert (NN : c_a d <> None).
  { cbn [d c_a]. unfold bin_range. cbn [fst snd range_of on c_range c_a c_b]. intros F.
    match type of F with context [known ?l] => assert (X : exists p, In p (known l)) end.
    { exists (Finite (1 * / (0 + 1))). apply known_In, outer_In. exists (Finite 1), (Finite (0 + 1)). split; [apply (proj1 (with_zero_ends (Some (Finite 1), Some (Finite 2))))|]. split; [apply (proj1 (with_zero_ends (Some (Finite (0 + 1)), Some (Finite (1 + 2)))))|]. cbn [xdiv]. destruct (reqP (0 + 1) 0); [lra|reflexivity]. }
    destruct X as (p & P). destruct (known _) as [|q l]; [destruct P|discriminate F]. }
  assert (R : ranged (exS ++ [d]) 3).
  { eapply (rg_div _ 3 d 1 2); [reflexivity|reflexivity| | |reflexivity| |exact NN].
    - eapply rg_base; reflexivity.
    - eapply (rg_sum _ 2 _ 0 1); [reflexivity|reflexivity| |]; eapply rg_base; reflexivity.
    - cbn. left. lra. }
  split; [exact R|]. split; [reflexivity|]. intros w W0 W1 x V. eapply (ranges_contain_main (exS ++ [d]) w B) with (i := 3%nat); [|exact R|reflexivity|exact V].
  intros [|[|[|[|j]]]] c E K; cbn in E; try (destruct j; discriminate E); injection E as <-; try discriminate K; cbn; auto.
Qed.

(** the same objects tracked for sampling: Z = X + Y and Z * X share their draws *)
Definition off (c : cell) : cell := Cell (c_kind c) (c_par c) false (c_distr c) (c_a c) (c_b c) (c_range c) (c_sym c) (c_name c).
Definition exT : heap := map off exS ++ [Cell (KBin OMul 2 0) [2; 0]%nat false true (Some (Finite 0)) (Some (Finite 3)) None (EMul (EVar 2) (EVar 0)) 3].
Example exT_wf : wf_heap exT.
Proof. intros [|[|[|[|i]]]] c E; cbn in E; try (destruct i; discriminate E); injection E as <-; cbn; split; intros p P; repeat (destruct P as [<-|P]; [lia|]); destruct P. Qed.
Example exT_tracked i : tracked exT i.
Proof. intros j c _ E. destruct j as [|[|[|[|j]]]]; cbn in E; try (destruct j; discriminate E); injection E as <-; auto. Qed.
Example exT_samples draw : let d0 := draw 0%nat 0%nat in let d1 := draw 1%nat 1%nat in
  samples draw exT [3; 2; 1]%nat (Some []) 0 = Ok ([(d0 + d1) * d0; d0 + d1; d1], Some [(3%nat, (d0 + d1) * d0); (2%nat, d0 + d1); (1%nat, d1); (0%nat, d0)], 2%nat).
Proof. reflexivity. Qed.
Example exT_no_partial : no_partial exT 3.
Proof. intros j c _ E. destruct j as [|[|[|[|j]]]]; cbn in E; try (destruct j; discriminate E); injection E as <-; cbn; auto. Qed.

(** the dependence check warns about Z * X and not about X + Y *)
Example exT_warn : warns exT [] [2; 0]%nat = Ok true /\ warns exT [] [0; 1]%nat = Ok false.
Proof. split; reflexivity. Qed.
Example exT_anc : getAncestorIDs exT 3 = Ok [0; 1; 2; 3]%nat /\ getParentsFree exT 3 = Ok [0; 1; 0]%nat /\ getParentsDep exT 3 = Ok [3; 2]%nat /\ getParentsAll exT 3 = Ok [3; 2]%nat.
Proof. splits; reflexivity. Qed.

(** X - X with the default setting, and its two draws *)
Example ex_minus : exists h i, bin_rv OSub exH 0 0 = Ok (h, VRV i) /\ sample (fun k _ => INR k) h i None 0 = Ok (0 - 1, None, 2%nat).
Proof. eexists _, _. split; [reflexivity|]. reflexivity. Qed.

(** a model from Z = X + Y with a density over X and Y *)
Definition exF : ndfun := NDF [0; 1]%nat [0; 1] [1; 2] false (fun _ => 1).
Example ex_model : exists M, model_init exS [FDens exF] [2%nat] = Ok M /\ wf_model (fun v => INR v) (fun v => INR v + 1) M /\ m_free M = [0; 1]%nat /\ m_dep M = [2%nat].
Proof.
  destruct (model_from_variables_main (fun v => INR v) (fun v => INR v + 1) exS [FDens exF] [2%nat]) as (M & E & W & _).
  - apply built_objects_main; [apply exS_built|]. intros [|[|[|i]]] c E K; cbn in E; try (destruct i; discriminate E); injection E as <-; auto; discriminate K.
  - apply built_objects_main; [apply exS_built|]. intros [|[|[|i]]] c E K; cbn in E; try (destruct i; discriminate E); injection E as <-; auto; discriminate K.
  - intros i [<-|[]]. eexists. split; [reflexivity|discriminate].
  - constructor; [|constructor]. unfold wf_f, wf_nd. cbn [exF nd_vars nd_a nd_b map INR]. split; [repeat constructor; cbn; intuition discriminate|]. split; [discriminate|]. split; [auto|]. repeat f_equal; ring.
  - intros j c (E & i & [<-|[]] & R). destruct j as [|[|[|j]]]; cbn in E; try (destruct j; discriminate E); injection E as <-; cbn; split; auto; intros X; try (exists (FDens exF); cbn; auto; fail); [destruct X as (g & [<-|[]] & G); cbn in G; intuition discriminate|discriminate].
  - exists M. split; auto. split; auto. injection E as <-. auto.
Qed.
