(** Proofs about entropy, L2 distance and Kullback-Leibler distance. *)
From Coq Require Import Reals Lra Lia List Bool Sorted Permutation.
From Coquelicot Require Import Coquelicot.
From Verif Require Import Base Bisect Seg Piecewise PiecewiseSpec PiecewiseFacts PiecewiseFacts2 PiecewiseFacts3 PiecewiseFacts4 Integral IntegralFacts SegInt SegIntSpec SegIntFacts SegIntMain CumintFacts IndepSpec AtomFacts AtomFacts2 AtomFacts3 ExtrFacts2 TransformSpec TransformFacts TransformFacts2 OperationFacts CondFacts ConvolFacts IndepAsm CondFacts2 Info InfoSpec InfoFacts.
Import List ListNotations.
Open Scope R_scope.

Lemma ends_exist ls : exists P, ends_of ls P.
Proof.
  exists (np_unique (flat_map getBreaks ls)). split; [apply np_unique_sorted|]. intros y. rewrite np_unique_In, in_flat_map.
  split; intros (l & H1 & H2); exists l; split; auto; apply is_end_breaks; auto.
Qed.
Lemma atoms_exist ls : exists A, atoms_of ls A.
Proof.
  exists (nodup Req_EM_T (flat_map dirac_pos ls)). split; [apply NoDup_nodup|]. intros x. rewrite nodup_In, in_flat_map. split.
  - intros (l & H1 & H2). apply dirac_pos_In in H2. destruct H2 as (m & H2). exists l, m; auto.
  - intros (l & m & H1 & H2). exists l. split; auto. apply dirac_pos_In. eauto.
Qed.

Lemma cross_same eps f g : 0 <= eps -> good eps f -> (forall a k, In (DiracSeg a k) g -> exists m, In (DiracSeg a m) f) -> cross_sep eps f g.
Proof.
  intros He (_ & _ & D) H a m b k Ha Hb. destruct (H b k Hb) as (m' & Hb').
  apply dirac_sep_iff in D; auto. destruct D as (_ & D). destruct (Req_EM_T a b) as [E|E]; auto. right. apply D; auto; apply dirac_pos_In; eauto.
Qed.

Definition covb (l : list segment) (x : R) : bool :=
  existsb (fun s => if isDirac s then false else if Rbar_lt_dec (sa s) x then if Rbar_lt_dec x (sb s) then true else false else false) l.

Lemma covb_dens l x : dens l x <> 0 -> covb l x = true.
Proof.
  intros H. destruct (covb l x) eqn:E; auto. exfalso. apply H. rewrite dens_sum. apply sumR_zero. intros v Hv. apply in_map_iff in Hv.
  destruct Hv as (s & <- & Hs). unfold dens1. destruct (isDirac s) eqn:D; auto.
  destruct (Rbar_lt_dec (sa s) x) as [A|A]; auto. destruct (Rbar_lt_dec x (sb s)) as [B|B]; auto. exfalso.
  assert (K : covb l x = true). { apply existsb_exists. exists s. split; auto. rewrite D. destruct (Rbar_lt_dec (sa s) x); [|tauto]. destruct (Rbar_lt_dec x (sb s)); tauto. }
  congruence.
Qed.

Lemma atom_log_pos m : 0 < m -> atom_log m = Ok (ln m).
Proof. intros H. unfold atom_log. destruct (rltP 0 m); [auto|lra]. Qed.
Lemma atom_log1_pos m : 0 < m -> atom_log1 m = Ok (- ln m).
Proof. intros H. unfold atom_log1. destruct (rltP 0 m); [auto|lra]. Qed.

(** ** entropy *)
Lemma eta_0 : eta 0 = 0. Proof. unfold eta. destruct (Rlt_dec 0 0); lra. Qed.

Lemma entropy_cut eps big l P A : 0 <= eps -> good eps l -> pos_atoms l -> ends_of [l] P -> atoms_of [l] A ->
  entropy eps big l = Ok (cut_int (fun x => eta (dens l x)) P + sumR (map (fun x => eta (pm l x)) A)).
Proof.
  intros He G PA (SP & EP) (NA & EA).
  destruct (function_ok eps (np_log1 big) atom_log1 (fun m => - ln m) l He G) as (q & Q1 & Q2 & Q3 & Q4 & Q5).
  { intros a m H. apply atom_log1_pos. eapply PA; eauto. }
  pose proof (sep_nodup eps _ He (proj2 (proj2 G))) as N. pose proof (sep_nodup eps _ He (proj2 (proj2 Q2))) as N'.
  assert (AT : forall a, (exists k, In (DiracSeg a k) (segs q)) <-> exists m, In (DiracSeg a m) l).
  { intros a. split; intros (k & Hk); apply mass_at_iff in Hk; auto.
    - rewrite Q5 in Hk. destruct (mass_at l a) as [m|] eqn:E; [|discriminate]. exists m. apply mass_at_iff; auto.
    - exists (- ln k). apply mass_at_iff; auto. rewrite Q5, Hk. reflexivity. }
  destruct (op_all eps Rmult l (segs q) He G Q2) as (h & H1 & _ & _ & _ & _ & H2).
  { apply cross_same; auto. intros a k Hk. apply AT. eauto. }
  { ring. }
  unfold entropy, pw_log1. rewrite Q1. cbn [rbind]. rewrite H1. cbn [rmap rbind]. f_equal.
  rewrite (H2 P A).
  - f_equal.
    + apply cut_int_ext; auto. intros x Nx.
      assert (Nl : ~ is_end l x) by (intros K; apply Nx, EP; exists l; simpl; auto).
      rewrite Q4 by auto. fold (covb l x). unfold eta, np_log1. destruct (Rlt_dec 0 (dens l x)) as [K|K].
      * rewrite covb_dens by lra. destruct (rltP 0 (dens l x)); [ring|lra].
      * destruct (covb l x); [|ring]. destruct (rltP 0 (dens l x)); [lra|]. destruct (reqP (dens l x) 0) as [->|]; ring.
    + f_equal. apply map_ext_in. intros x Hx. rewrite Q5. rewrite pm_mass_at by auto. apply EA in Hx. destruct Hx as (l0 & m & [<-|[]] & Hx).
      pose proof (PA x m Hx) as M. apply mass_at_iff in Hx; auto. rewrite Hx. cbn [option_map comb ov]. unfold eta. destruct (Rlt_dec 0 m); [ring|lra].
  - split; auto. intros y. rewrite EP. split.
    + intros (l0 & [<-|[]] & K). exists l; simpl; auto.
    + intros (l0 & [<-|[<-|[]]] & K); exists l; split; simpl; auto. apply is_end_breaks. apply Q3. apply is_end_breaks. auto.
  - split; auto. intros x. rewrite EA. split.
    + intros (l0 & m & [<-|[]] & K). exists l, m; simpl; auto.
    + intros (l0 & m & [<-|[<-|[]]] & K); [exists l, m; simpl; auto|]. destruct (proj1 (AT x)) as (m' & K'); [eauto|]. exists l, m'; simpl; auto.
Qed.

Definition remake_all (F : R -> R) (l : list segment) : list segment :=
  map (fun s => match s with DiracSeg a m => DiracSeg a (F m) | _ => remake s (fun x => F (sf s x)) end) l.

Lemma ordered_pairs l P : ordered l -> Forall wf_seg l -> ends_of [l] P -> forall s, In s l -> isDirac s = false -> In (sa s, sb s) (pairs_up P).
Proof.
  intros O W (SP & EP) s Hs D. apply pairs_up_In; auto. rewrite Forall_forall in W.
  splits; try (apply EP; exists l; split; simpl; auto; exists s; auto).
  - pose proof (W s Hs). destruct s; auto; discriminate.
  - intros y Hy (Y1 & Y2). apply EP in Hy. destruct Hy as (l0 & [<-|[]] & (t & Ht & Ey)).
    destruct (in_split _ _ Hs) as (l1 & l2 & ->).
    assert (K : t = s \/ before t s \/ before s t).
    { apply SS_app in O. destruct O as (_ & O2 & O3). apply StronglySorted_inv in O2. destruct O2 as (_ & F). rewrite Forall_forall in F.
      apply in_app_iff in Ht. destruct Ht as [Ht|[->|Ht]]; [right; left; apply O3; simpl; auto|auto|right; right; apply F; auto]. }
    assert (LT : Rbar_le (sa t) (sb t)). { pose proof (W t Ht) as Wt. destruct t; simpl in *; auto; lra. }
    destruct K as [->|[(K & _)|(K & _)]].
    + destruct Ey as [->| ->]; eapply Rbar_lt_irrefl; eauto.
    + assert (Rbar_le y (sb t)) by (destruct Ey as [->| ->]; auto; apply Rbar_le_refl).
      apply (Rbar_lt_irrefl y). eapply Rbar_le_lt_trans; [|exact Y1]. eapply Rbar_le_trans; eauto.
    + assert (Rbar_le (sa t) y) by (destruct Ey as [->| ->]; auto; apply Rbar_le_refl).
      apply (Rbar_lt_irrefl y). eapply Rbar_lt_le_trans; [exact Y2|]. eapply Rbar_le_trans; eauto.
Qed.

(** the integral of F o density, piece by piece *)
Lemma cut_pieces F l P : F 0 = 0 -> ordered l -> Forall wf_seg l -> ends_of [l] P ->
  cut_int (fun x => F (dens l x)) P = sumR (map (fun s => RInt_gen (fun x => F (sf s x)) (at_r (sa s)) (at_l (sb s))) (getSegments l)).
Proof.
  intros F0 O W EP. pose proof EP as (SP & _).
  set (l' := remake_all F l).
  assert (EE : forall s, sa (match s with DiracSeg a m => DiracSeg a (F m) | _ => remake s (fun x => F (sf s x)) end) = sa s /\
     sb (match s with DiracSeg a m => DiracSeg a (F m) | _ => remake s (fun x => F (sf s x)) end) = sb s /\
     isDirac (match s with DiracSeg a m => DiracSeg a (F m) | _ => remake s (fun x => F (sf s x)) end) = isDirac s) by (intros []; simpl; auto).
  assert (O' : ordered l').
  { eapply ordered_ends; [|exact O]. unfold l', remake_all. rewrite map_map. apply map_ext. intros s. destruct (EE s) as (-> & -> & _). auto. }
  assert (W' : Forall wf_seg l').
  { apply Forall_map. eapply Forall_impl; [|exact W]. intros []; simpl; auto. }
  assert (PP : forall s, In s l' -> isDirac s = false -> In (sa s, sb s) (pairs_up P)).
  { intros s Hs D. apply in_map_iff in Hs. destruct Hs as (t & <- & Ht). destruct (EE t) as (E1 & E2 & E3). rewrite E1, E2. apply (ordered_pairs l P); auto. congruence. }
  pose proof (cont_cut P l' SP O' W' PP) as K.
  transitivity (cut_int (dens l') P).
  - apply cut_int_ext; auto. intros x Nx.
    destruct (covb l x) eqn:C.
    + apply existsb_exists in C. destruct C as (s & Hs & C). destruct (isDirac s) eqn:D; [discriminate|].
      destruct (Rbar_lt_dec (sa s) x) as [A|]; [|discriminate]. destruct (Rbar_lt_dec x (sb s)) as [B|]; [|discriminate].
      rewrite (dens_at l s x); auto. destruct (EE s) as (E1 & E2 & E3).
      rewrite (dens_at l' (remake s (fun x => F (sf s x))) x); auto.
      * destruct s; try discriminate; reflexivity.
      * apply in_map_iff. exists s. split; auto. destruct s; try discriminate; reflexivity.
      * destruct s; try discriminate; reflexivity.
      * destruct s; try discriminate; auto.
      * destruct s; try discriminate; auto.
    + assert (Z : dens l x = 0). { destruct (Req_EM_T (dens l x) 0); auto. rewrite covb_dens in C; auto. discriminate. }
      rewrite Z, F0. symmetry. fold l'. destruct (Req_EM_T (dens l' x) 0) as [|Z']; auto. exfalso.
      apply covb_dens in Z'. apply existsb_exists in Z'. destruct Z' as (s & Hs & E). apply in_map_iff in Hs. destruct Hs as (t & <- & Ht).
      destruct (EE t) as (E1 & E2 & E3). rewrite E1, E2, E3 in E.
      assert (covb l x = true) by (apply existsb_exists; exists t; auto). congruence.
  - rewrite <- K. unfold l', remake_all, getSegments. clear. induction l as [|s l IH]; auto. cbn [map filter].
    destruct s; simpl in *; rewrite ?IH; auto.
Qed.

Lemma entropy_pieces eps big l : 0 <= eps -> good eps l -> pos_atoms l -> entropy eps big l = Ok (sumR (map ent_piece l)).
Proof.
  intros He G PA. destruct (ends_exist [l]) as (P & EP). destruct (atoms_exist [l]) as (A & EA).
  rewrite (entropy_cut eps big l P A); auto. f_equal. destruct G as (O & W & D). pose proof (sep_nodup eps _ He D) as N.
  rewrite (cut_pieces eta l P eta_0 O W EP).
  assert (K1 : sumR (map (fun x => eta (pm l x)) A) = sumR (map ent_piece (getDiracs l))).
  { rewrite (sum_lookup (fun s => real (sa s)) (fun x => getDirac l x) ent_piece (getDiracs l) A).
    - f_equal. apply map_ext. intros x. rewrite pm_mass_at; auto. unfold mass_at. destruct (getDirac l x) as [s|] eqn:E; simpl; [|apply eta_0].
      apply getDirac_Some in E. destruct E as (m & -> & _). reflexivity.
    - replace (map (fun s => real (sa s)) (getDiracs l)) with (dirac_pos l); auto.
      clear. unfold getDiracs, dirac_pos. induction l as [|s l IH]; simpl; auto. rewrite IH. destruct s; auto.
    - apply EA.
    - intros x Hx. apply in_map_iff in Hx. destruct Hx as (s & <- & Hs).
      apply filter_In in Hs. destruct Hs as (Hs & Ds). destruct s; try discriminate. apply EA. exists l, m. simpl; auto.
    - intros x s _. split.
      + intros E. apply getDirac_Some in E. destruct E as (m & -> & H). split; auto. apply filter_In; auto.
      + intros (Hs & E). apply filter_In in Hs. destruct Hs as (Hs & Ds). destruct s; try discriminate. simpl in E. subst.
        apply getDirac_hit; auto. }
  rewrite K1. clear. unfold getSegments, getDiracs, isSegment. induction l as [|s l IH]; [simpl; lra|].
  destruct s; cbn [filter map isDirac negb]; rewrite !sumR_cons, <- IH; cbn [ent_piece]; lra.
Qed.
