(** Proofs about whole products. *)
From Coq Require Import Reals Lra Lia List Bool Sorted Permutation.
From Coquelicot Require Import Coquelicot.
From Verif Require Import Base Bisect Seg Piecewise PiecewiseSpec PiecewiseFacts PiecewiseFacts2 PiecewiseFacts3 PiecewiseFacts4 Integral IntegralFacts SegInt SegIntSpec IntParts IntPartsFacts Wide WideMain Indep IndepSpec AtomFacts AtomFacts2 AtomFacts3 ConvolFacts IndepAsm AsmFacts ExtrFacts ExtrFacts2 ExtrFacts3 ProdFacts ProdFacts2 ProdAsm ProdAsmSpec.
Import List ListNotations.
Open Scope R_scope.

(** ** changing a function at finitely many points does not change its integral *)
Lemma has_int_ext_in h k a b I : has_int h a b I -> (forall t : R, RbarIn a b t -> h t = k t) -> has_int k a b I.
Proof.
  induction 1 as [a b I H1 H2|a b c I J H1 IH1 H2 IH2]; intros E.
  - pose proof (has_int_one_unique h a b I (has_int_one h a b I H1 H2) H1) as ->.
    assert (L : Rbar_lt a b) by apply H1.
    rewrite (Q_ext h k a b L E). apply has_int_Q. eapply integrable_ext; eauto.
  - pose proof (has_int_lt _ _ _ _ H1) as L1. pose proof (has_int_lt _ _ _ _ H2) as L2. apply (has_int_cat k a b c).
    + apply IH1. intros t (T1 & T2). apply E. split; auto. eapply Rbar_lt_trans; eauto.
    + apply IH2. intros t (T1 & T2). apply E. split; auto. eapply Rbar_lt_trans; eauto.
Qed.
Lemma has_int_ext_fin h k pts : forall a b I, has_int h a b I -> (forall t : R, RbarIn a b t -> ~ In t pts -> h t = k t) -> has_int k a b I.
Proof.
  induction pts as [|c pts IH]; intros a b I H E.
  - eapply has_int_ext_in; eauto.
  - destruct (Rbar_lt_dec a c) as [L1|L1], (Rbar_lt_dec c b) as [L2|L2].
    + destruct (has_int_split h a b I H c L1 L2) as (J & K & HJ & HK & ->). apply (has_int_cat k a c b).
      * apply IH; auto. intros t (T1 & T2) N. apply E; [split; auto; eapply Rbar_lt_trans; eauto|]. intros [->|]; auto. apply (Rbar_lt_not_eq t t); auto.
      * apply IH; auto. intros t (T1 & T2) N. apply E; [split; auto; eapply Rbar_lt_trans; eauto|]. intros [->|]; auto. apply (Rbar_lt_not_eq t t); auto.
    + apply IH; auto. intros t (T1 & T2) N. apply E; [split; auto|]. intros [->|]; auto.
    + apply IH; auto. intros t (T1 & T2) N. apply E; [split; auto|]. intros [->|]; auto.
    + apply IH; auto. intros t (T1 & T2) N. apply E; [split; auto|]. intros [->|]; auto.
Qed.

(** ** the cut functions *)
Lemma cut_sorted : StronglySorted Rbar_lt cut_points.
Proof. unfold cut_points. repeat constructor; simpl; lra. Qed.
Definition cut (l : list segment) : list segment := split_all cut_points l.
Lemma cut_In p : In p cut_points <-> p = Finite (-1) \/ p = Finite 0 \/ p = Finite 1.
Proof. unfold cut_points. simpl. split; intros H; decompose [or] H; subst; auto; tauto. Qed.
Lemma cut_ends l p : Forall wf_seg l -> is_end (cut l) p <-> cut_end l p.
Proof.
  intros W. rewrite <- !getBreaks_end. unfold cut. rewrite split_breaks_In by (auto using cut_sorted).
  rewrite getBreaks_end, cut_In. unfold cut_end, inside. tauto.
Qed.
Lemma cut_one_sided l : Forall wf_seg l -> Forall one_sided (cut l).
Proof.
  intros W. apply Forall_forall. intros s Hs. unfold one_sided. destruct (Rbar_lt_dec (sa s) 0) as [A|A].
  - right. apply Rbar_not_lt. intros B. apply (split_no_inside cut_points l s 0 cut_sorted W Hs); [apply cut_In; auto|split; auto].
  - left. apply Rbar_not_lt. auto.
Qed.
Lemma cut_dens l (x : R) : ordered l -> Forall wf_seg l -> ~ cut_end l x -> dens (cut l) x = dens l x.
Proof.
  intros O W N. destruct (in_dec (fun a b => ltac:(apply Rbar_eq_dec)) (Finite x) cut_points) as [I|I].
  - destruct (split_all_ordered cut_points l cut_sorted O W) as (O' & W' & _). rewrite !dens_zero; auto.
    + intros s Hs D (C1 & C2). apply N. right. apply cut_In in I. split; auto. exists s. splits; auto.
      destruct (Rbar_le_lt_or_eq_dec _ _ C1) as [L|E]; auto. exfalso. apply N. left. exists s. auto.
    + intros s Hs D (C1 & C2). apply (split_no_inside cut_points l s x cut_sorted W Hs I). split; auto.
      destruct (Rbar_le_lt_or_eq_dec _ _ C1) as [L|E]; auto. exfalso. apply N. apply cut_ends; auto. exists s. auto.
  - apply split_dens; auto using cut_sorted. intros E. apply N. left. auto.
Qed.
Lemma cut_atom l a m : Forall wf_seg l -> In (DiracSeg a m) (cut l) <-> In (DiracSeg a m) l.
Proof. intros W. apply split_In_dirac; auto using cut_sorted. Qed.
Lemma cut_atom_sum w l : Forall wf_seg l -> atom_sum w (cut l) = atom_sum w l.
Proof.
  intros W. assert (G : forall t, atom_sum w t = sumR (map (fun s => match s with DiracSeg a m => m * w a | _ => 0 end) (getDiracs t))).
  { intros t. unfold atom_sum, getDiracs. induction t as [|s t IH]; auto. cbn [map filter]. rewrite sumR_cons, IH. destruct s; cbn [isDirac map]; rewrite ?sumR_cons; ring. }
  rewrite !G. unfold cut. rewrite split_diracs; auto using cut_sorted.
Qed.
Lemma cut_part l s : Forall wf_seg l -> In s (cut l) -> exists t, In t l /\ wf_seg s /\ isDirac s = isDirac t /\ sf s = sf t /\ Rbar_le (sa t) (sa s) /\ Rbar_le (sb s) (sb t).
Proof.
  intros W Hs. unfold cut in Hs. apply split_all_In in Hs. destruct Hs as (t & Ht & Hs). rewrite Forall_forall in W.
  destruct (split_seg_spec cut_points t cut_sorted (W t Ht)) as (P & _). rewrite Forall_forall in P. exists t. split; [auto|]. destruct (P s Hs) as (A & B & C & D & E). splits; auto.
Qed.
Lemma cut_kernel f g x : Forall wf_seg f -> Forall wf_seg g -> prod_integrable f g x ->
  kernel_integrable (fun t => t) (fun t => x / t) (fun t => / Rabs t) (cut f) (cut g).
Proof.
  intros Wf Wg HI si sj a b Hi Hj Di Dj L H.
  destruct (cut_part f si Wf Hi) as (ti & Ti & _ & Ei & Fi & Ai & Bi). destruct (cut_part g sj Wg Hj) as (tj & Tj & _ & Ej & Fj & Aj & Bj).
  rewrite Fi, Fj. apply HI; auto; try congruence. intros t T1 T2. destruct (proj1 (H t) (conj T1 T2)) as (K1 & K2 & K3 & K4). splits.
  - pose proof (cut_one_sided f Wf) as O. rewrite Forall_forall in O. destruct (O si Hi) as [O1|O1].
    + intros ->. pose proof (Rbar_le_lt_trans _ _ _ O1 K1) as Z. simpl in Z. lra.
    + intros ->. pose proof (Rbar_lt_le_trans _ _ _ K2 O1) as Z. simpl in Z. lra.
  - eapply Rbar_le_lt_trans; eauto.
  - eapply Rbar_lt_le_trans; eauto.
  - eapply Rbar_le_lt_trans; eauto.
  - eapply Rbar_lt_le_trans; eauto.
Qed.
Fixpoint fin_pts (l : list Rbar) : list R := match l with [] => [] | Finite r :: t => r :: fin_pts t | _ :: t => fin_pts t end.
Lemma fin_pts_In l r : In r (fin_pts l) <-> In (Finite r) l.
Proof.
  induction l as [|[a| |] l IH]; simpl; try tauto.
  - rewrite IH. split; intros [H|H]; auto; left; [f_equal; auto|injection H; auto].
  - rewrite IH. split; auto. intros [H|H]; auto; discriminate.
  - rewrite IH. split; auto. intros [H|H]; auto; discriminate.
Qed.
Lemma cut_prod_density f g x v : x <> 0 -> ordered f -> ordered g -> Forall wf_seg f -> Forall wf_seg g -> ~ end_prod f g x ->
  prod_density (cut f) (cut g) x v -> prod_density f g x v.
Proof.
  intros X Of Og Wf Wg N (I & HI & ->). exists I. split.
  - apply (has_int_ext_fin _ _ (0 :: fin_pts (getBreaks (cut f)) ++ map (fun p => x / p) (fin_pts (getBreaks (cut g)))) _ _ _ HI).
    intros t _ NI. rewrite (cut_dens f t), (cut_dens g (x / t)); auto.
    + intros C. apply NI. right. apply in_app_iff. right. apply in_map_iff. exists (x / t). split.
      * field. split; auto. intros ->. apply NI. left. auto.
      * apply fin_pts_In, getBreaks_end, cut_ends; auto.
    + intros C. apply NI. right. apply in_app_iff. left. apply fin_pts_In, getBreaks_end, cut_ends; auto.
  - rewrite !cut_atom_sum by auto. f_equal; [f_equal|].
    + unfold atom_sum. f_equal. apply map_ext_in. intros s Hs. destruct s as [| | | |a m|]; auto. destruct (Req_EM_T a 0); auto. rewrite (cut_dens g); auto.
      intros C. apply N. exists a, (x / a). splits; auto; [left; exists (DiracSeg a m); simpl; auto|field; auto].
    + unfold atom_sum. f_equal. apply map_ext_in. intros s Hs. destruct s as [| | | |a m|]; auto. destruct (Req_EM_T a 0); auto. rewrite (cut_dens f); auto.
      intros C. apply N. exists (x / a), a. splits; auto; [left; exists (DiracSeg a m); simpl; auto|field; auto].
Qed.

(** ** break points of the product *)
Definition all_prods (bf bg : list Rbar) : list Rbar :=
  flat_map (fun p => flat_map (fun q => match op_mul p q with Some r => [r] | None => [] end) bg) bf.
Lemma all_prods_In bf bg r : In r (all_prods bf bg) <-> exists p q, In p bf /\ In q bg /\ op_mul p q = Some r.
Proof.
  unfold all_prods. rewrite in_flat_map. split.
  - intros (p & Hp & H). apply in_flat_map in H. destruct H as (q & Hq & H). destruct (op_mul p q) eqn:E; [|destruct H]. destruct H as [<-|[]]. eauto.
  - intros (p & q & Hp & Hq & E). exists p. split; auto. apply in_flat_map. exists q. split; auto. rewrite E. simpl; auto.
Qed.
Lemma op_mul_fin p q (r : R) : op_mul p q = Some (Finite r) -> exists a b : R, p = a /\ q = b /\ r = a * b.
Proof.
  destruct p as [p| |], q as [q| |]; unfold op_mul; intros E.
  - injection E as <-. eauto.
  - destruct (reqP p 0); [discriminate|]. injection E. simpl. destruct (Rle_dec 0 p); try discriminate. destruct (Rle_lt_or_eq_dec 0 p r0); discriminate || (intros; exfalso; auto).
  - destruct (reqP p 0); [discriminate|]. injection E. simpl. destruct (Rle_dec 0 p); try discriminate. destruct (Rle_lt_or_eq_dec 0 p r0); discriminate || (intros; exfalso; auto).
  - destruct (reqP q 0); [discriminate|]. injection E. simpl. destruct (Rle_dec 0 q); try discriminate. destruct (Rle_lt_or_eq_dec 0 q r0); discriminate || (intros; exfalso; auto).
  - discriminate.
  - discriminate.
  - destruct (reqP q 0); [discriminate|]. injection E. simpl. destruct (Rle_dec 0 q); try discriminate. destruct (Rle_lt_or_eq_dec 0 q r0); discriminate || (intros; exfalso; auto).
  - discriminate.
  - discriminate.
Qed.
Lemma not_zero_cut l : Forall wf_seg l -> not_zero l -> exists p : R, p <> 0 /\ cut_end l p.
Proof.
  intros W (s & Hs & N). rewrite Forall_forall in W. specialize (W s Hs).
  assert (E : forall p : R, (sa s = p \/ sb s = p) -> p <> 0 -> exists p : R, p <> 0 /\ cut_end l p).
  { intros p H Z. exists p. split; auto. left. exists s. split; auto. destruct H; auto. }
  destruct s as [a b h|a b c|b h|a h|a m|a b h lf]; simpl in W, E.
  - destruct (Req_dec a 0) as [->|Za]; [apply (E b); auto; lra|apply (E a); auto].
  - destruct (Req_dec a 0) as [->|Za]; [apply (E b); auto; lra|apply (E a); auto].
  - destruct (Req_dec b 0) as [->|Zb]; [|apply (E b); auto]. exists (-1). split; [lra|]. right. split; auto. eexists; split; [exact Hs|]. simpl. split; auto; lra.
  - destruct (Req_dec a 0) as [->|Zb]; [|apply (E a); auto]. exists 1. split; [lra|]. right. split; auto. eexists; split; [exact Hs|]. simpl. split; auto; lra.
  - destruct (Req_dec a 0) as [->|Za]; [exfalso; apply (N m); auto|apply (E a); auto].
  - destruct (Req_dec a 0) as [->|Za]; [apply (E b); auto; lra|apply (E a); auto].
Qed.
Lemma op_mul_comm p q : op_mul p q = op_mul q p.
Proof. destruct p, q; unfold op_mul; auto; try rewrite Rmult_comm; auto; rewrite Rbar_mult_comm; auto. Qed.
Lemma op_mul_some p (q : R) : q <> 0 -> op_mul p q = Some (Rbar_mult p q).
Proof. intros Z. destruct p; unfold op_mul; auto; destruct (reqP q 0); auto; congruence. Qed.
Lemma mult_inj p p' (q : R) : q <> 0 -> Rbar_mult p q = Rbar_mult p' q -> p = p'.
Proof.
  intros Z E. assert (K : forall x, Rbar_mult (Rbar_mult x q) (/ q) = x).
  { intros x. assert (Rbar_mult q (/ q) = 1) by (simpl; f_equal; field; auto). destruct x as [x| |].
    - simpl. f_equal. field. auto.
    - simpl. assert (Z' : / q <> 0) by (apply Rinv_neq_0_compat; auto). destruct (Rtotal_order q 0) as [L|[L|L]]; [|congruence|].
      + assert (/ q < 0) by (apply Rinv_lt_0_compat; auto). repeat (destruct (Rle_dec _ _); try lra); simpl; repeat (destruct (Rle_dec _ _); try lra); auto;
        repeat (destruct (Rle_lt_or_eq_dec _ _ _); try lra); auto.
      + assert (0 < / q) by (apply Rinv_0_lt_compat; auto). repeat (destruct (Rle_dec _ _); try lra); repeat (destruct (Rle_lt_or_eq_dec _ _ _); try lra); simpl; repeat (destruct (Rle_dec _ _); try lra); auto;
        repeat (destruct (Rle_lt_or_eq_dec _ _ _); try lra); auto.
    - simpl. assert (Z' : / q <> 0) by (apply Rinv_neq_0_compat; auto). destruct (Rtotal_order q 0) as [L|[L|L]]; [|congruence|].
      + assert (/ q < 0) by (apply Rinv_lt_0_compat; auto). repeat (destruct (Rle_dec _ _); try lra); simpl; repeat (destruct (Rle_dec _ _); try lra); auto;
        repeat (destruct (Rle_lt_or_eq_dec _ _ _); try lra); auto.
      + assert (0 < / q) by (apply Rinv_0_lt_compat; auto). repeat (destruct (Rle_dec _ _); try lra); repeat (destruct (Rle_lt_or_eq_dec _ _ _); try lra); simpl; repeat (destruct (Rle_dec _ _); try lra); auto;
        repeat (destruct (Rle_lt_or_eq_dec _ _ _); try lra); auto. }
  rewrite <- (K p), <- (K p'), E. auto.
Qed.
Lemma sum_diracs (h : segment -> R) l : (forall s, isDirac s = false -> h s = 0) -> sumR (map h (getDiracs l)) = sumR (map h l).
Proof.
  intros H. unfold getDiracs. induction l as [|s l IH]; auto. cbn [filter]. destruct (isDirac s) eqn:D; cbn [map]; rewrite ?sumR_cons, IH; auto. rewrite (H s D). ring.
Qed.
Lemma pair_sum_diracs w f g : pair_sum w (getDiracs f) (getDiracs g) = pair_sum w f g.
Proof.
  unfold pair_sum. rewrite sum_diracs.
  - f_equal. apply map_ext. intros si. apply sum_diracs. intros s D. destruct si, s; auto; discriminate.
  - intros s D. transitivity (sumR (map (fun _ : segment => 0) (getDiracs g))).
    + f_equal. apply map_ext. intros sj. destruct s; auto; discriminate.
    + clear. induction (getDiracs g); auto. cbn [map]. rewrite sumR_cons, IHl. ring.
Qed.
Lemma cut_cont_mass l : Forall wf_seg l -> Forall integrable_piece l -> cont_mass (cut l) = cont_mass l.
Proof.
  intros W HI. destruct (split_masses cut_points l 0 cut_sorted W HI) as (T & _). rewrite !mass_split in T. fold (cut l) in T.
  replace (atom_mass (cut l)) with (atom_mass l) in T; [lra|].
  unfold atom_mass. rewrite <- (sum_diracs _ l), <- (sum_diracs _ (cut l)) by (intros s D; destruct s; auto; discriminate). unfold cut. rewrite split_diracs; auto using cut_sorted.
Qed.
Lemma pm_pos_atom l z : pm l z <> 0 -> exists m, In (DiracSeg z m) l.
Proof.
  intros N. destruct (in_dec Req_EM_T z (dirac_pos l)) as [I|I]; [apply dirac_pos_In; auto|]. exfalso. apply N. apply pm_notin; auto.
Qed.
Lemma pairs_two l x y : StronglySorted Rbar_lt l -> In x l -> In y l -> x <> y -> pairs_up l <> [].
Proof.
  intros _ Hx Hy N. destruct l as [|a [|b l]]; simpl in *; try tauto; try discriminate.
  destruct Hx as [<-|[]], Hy as [<-|[]]. congruence.
Qed.
Section Whole.
Variables (eps ueps : R) (f g : list segment).
Hypothesis He : 0 <= eps.
Hypothesis Of : ordered f.
Hypothesis Og : ordered g.
Hypothesis Wf : Forall wf_seg f.
Hypothesis Wg : Forall wf_seg g.
Hypothesis If : Forall integrable_piece f.
Hypothesis Ig : Forall integrable_piece g.
Hypothesis Sf : dirac_sep eps f.
Hypothesis Sg : dirac_sep eps g.
Hypothesis Ef : not_zero f.
Hypothesis Eg : not_zero g.
Hypothesis PS : prods_sep ueps f g.

Definition pub : list Rbar := mul_ub ueps (getBreaks (cut f)) (getBreaks (cut g)).
Definition pval (z x : R) : R := val (rbind (findSegList (cut f) (cut g) z op_mul) (fun l => convprod_at_point l x)).
Lemma prods_end r : In r (all_prods (getBreaks (cut f)) (getBreaks (cut g))) <-> exists p q, cut_end f p /\ cut_end g q /\ op_mul p q = Some r.
Proof.
  rewrite all_prods_In. split; intros (p & q & Hp & Hq & E); exists p, q; splits; auto.
  - apply cut_ends; auto. apply getBreaks_end; auto.
  - apply cut_ends; auto. apply getBreaks_end; auto.
  - apply getBreaks_end, cut_ends; auto.
  - apply getBreaks_end, cut_ends; auto.
Qed.
Lemma prods_fin (r : R) : In (Finite r) (all_prods (getBreaks (cut f)) (getBreaks (cut g))) <-> end_prod f g r.
Proof.
  rewrite prods_end. split.
  - intros (p & q & Hp & Hq & E). apply op_mul_fin in E. destruct E as (a & b & -> & -> & ->). exists a, b. auto.
  - intros (p & q & Hp & Hq & ->). exists p, q. splits; auto.
Qed.
Lemma pub_In r : In r pub <-> exists p q, cut_end f p /\ cut_end g q /\ op_mul p q = Some r.
Proof.
  rewrite <- prods_end. unfold pub, mul_ub. change (flat_map _ (getBreaks (cut f))) with (all_prods (getBreaks (cut f)) (getBreaks (cut g))).
  destruct (epsunique_separated_main ueps (all_prods (getBreaks (cut f)) (getBreaks (cut g)))) as (_ & S2 & _ & S4). split; auto.
  intros H. destruct (S4 r H) as [F|]; auto. destruct r as [r| |]; try discriminate.
  destruct (epsunique_dropped_main ueps _ r H) as [|(u & U1 & U2 & U3 & _)]; auto. exfalso. apply prods_fin in H. apply prods_fin in U1.
  specialize (PS u r U1 H U2). lra.
Qed.
Lemma pub_fin (r : R) : In (Finite r) pub <-> end_prod f g r.
Proof. rewrite pub_In, <- prods_fin, prods_end. tauto. Qed.
Lemma pub_good : good_ub pub.
Proof.
  split.
  - apply epsunique_separated_main.
  - destruct (not_zero_cut f Wf Ef) as (p & _ & Hp), (not_zero_cut g Wg Eg) as (q & _ & Hq). exists (p * q). apply pub_fin. exists p, q. splits; auto.
Qed.
Lemma pub_corner si sj r : In si (cut f) -> In sj (cut g) -> In r (corners op_mul si sj) -> In r pub.
Proof.
  intros Hi Hj H. apply corners_In in H. destruct H as (p & q & Hp & Hq & E). apply pub_In. exists p, q. splits; auto.
  - apply cut_ends; auto. exists si. split; [auto|]. destruct Hp; auto.
  - apply cut_ends; auto. exists sj. split; [auto|]. destruct Hq; auto.
Qed.
Lemma prodrel_same a b (z x : R) si sj : In (a, b) (pairs_up pub) -> Rbar_lt a z -> Rbar_lt z b -> Rbar_lt a x -> Rbar_lt x b ->
  In si (cut f) -> In sj (cut g) -> prodrel z si sj = prodrel x si sj.
Proof.
  intros H A1 B1 A2 B2 Hi Hj. apply pairs_up_In in H; [|apply pub_good]. destruct H as (_ & _ & _ & N).
  unfold prodrel. f_equal; apply eq_true_iff_eq; rewrite !existsb_exists; split; intros (r & Hr & L); exists r; (split; auto); apply blt_true in L; apply blt_true;
  pose proof (N r (pub_corner si sj r Hi Hj Hr)) as M.
  - destruct (Rbar_lt_dec a r) as [U|U]; [exfalso; apply M; split; auto; apply (Rbar_lt_trans r z b); auto|]. apply Rbar_not_lt in U. apply (Rbar_le_lt_trans r a x); auto.
  - destruct (Rbar_lt_dec a r) as [U|U]; [exfalso; apply M; split; auto; apply (Rbar_lt_trans r x b); auto|]. apply Rbar_not_lt in U. apply (Rbar_le_lt_trans r a z); auto.
  - destruct (Rbar_lt_dec r b) as [U|U]; [exfalso; apply M; split; auto; apply (Rbar_lt_trans a z r); auto|]. apply Rbar_not_lt in U. apply (Rbar_lt_le_trans x b r); auto.
  - destruct (Rbar_lt_dec r b) as [U|U]; [exfalso; apply M; split; auto; apply (Rbar_lt_trans a x r); auto|]. apply Rbar_not_lt in U. apply (Rbar_lt_le_trans z b r); auto.
Qed.
Lemma cutF : ordered (cut f) /\ Forall wf_seg (cut f) /\ dirac_pos (cut f) = dirac_pos f.
Proof. apply split_all_ordered; auto using cut_sorted. Qed.
Lemma cutG : ordered (cut g) /\ Forall wf_seg (cut g) /\ dirac_pos (cut g) = dirac_pos g.
Proof. apply split_all_ordered; auto using cut_sorted. Qed.
Lemma find_rel z : findSegList (cut f) (cut g) z op_mul = Ok (filter (fun p => prodrel z (fst p) (snd p)) (seg_pairs (cut f) (cut g))).
Proof.
  unfold findSegList. apply filter_res_ok. intros p Hp. apply seg_pairs_In in Hp. destruct Hp as (H1 & H2).
  pose proof (cut_one_sided f Wf) as O1. pose proof (cut_one_sided g Wg) as O2. destruct cutF as (_ & W1 & _), cutG as (_ & W2 & _). rewrite Forall_forall in *.
  apply pair_relevant_prod. apply corners_ne; auto.
Qed.
(** value in a cell *)
Lemma pval_cell a b (z x : R) : In (a, b) (pairs_up pub) -> Rbar_lt a z -> Rbar_lt z b -> Rbar_lt a x -> Rbar_lt x b ->
  pval z x = val (convprod_at_point (filter (fun p => prodrel x (fst p) (snd p)) (seg_pairs (cut f) (cut g))) x).
Proof.
  intros H A1 B1 A2 B2. unfold pval. rewrite find_rel. cbn [rbind]. f_equal. f_equal. apply filter_ext_in.
  intros p Hp. apply seg_pairs_In in Hp. destruct Hp. eapply prodrel_same; eauto.
Qed.
Lemma pval_density a b (z x : R) : In (a, b) (pairs_up pub) -> Rbar_lt a z -> Rbar_lt z b -> Rbar_lt a x -> Rbar_lt x b -> x <> 0 -> prod_integrable f g x ->
  prod_density f g x (pval z x).
Proof.
  intros H A1 B1 A2 B2 X HI. rewrite (pval_cell a b z x) by auto. destruct cutF as (_ & W1 & _), cutG as (_ & W2 & _).
  destruct (prod_value (cut f) (cut g) x) as (v & V & D); auto using cut_one_sided, cut_kernel.
  unfold convprod_at_point. rewrite V. apply cut_prod_density; auto.
  intros K. apply pub_fin in K. apply pairs_up_In in H; [|apply pub_good]. destruct H as (_ & _ & _ & N). apply (N _ K). auto.
Qed.
Lemma outside_density (x : R) : x <> 0 -> ~ end_prod f g x -> prod_integrable f g x -> (forall y, In y pub -> Rbar_lt x y) \/ (forall y, In y pub -> Rbar_lt y x) -> prod_density f g x 0.
Proof.
  intros X N HI S. destruct cutF as (_ & W1 & _), cutG as (_ & W2 & _).
  destruct (prod_value (cut f) (cut g) x) as (v & V & D); auto using cut_one_sided, cut_kernel.
  assert (E : filter (fun p => prodrel x (fst p) (snd p)) (seg_pairs (cut f) (cut g)) = []).
  { destruct (filter _ _) as [|p l] eqn:E; auto. exfalso. assert (Hp : In p (p :: l)) by (simpl; auto). rewrite <- E in Hp. apply filter_In in Hp. destruct Hp as (Hp & R).
    apply seg_pairs_In in Hp. destruct Hp as (Hi & Hj). unfold prodrel in R. apply andb_true_iff in R. rewrite !existsb_exists in R.
    destruct R as ((r & R1 & R2) & r' & R3 & R4). apply blt_true in R2. apply blt_true in R4. apply pub_corner in R1; auto. apply pub_corner in R3; auto.
    destruct S as [S|S]; [specialize (S _ R1); apply (Rbar_lt_not_eq x x (Rbar_lt_trans x r x S R2))|specialize (S _ R3); apply (Rbar_lt_not_eq x x (Rbar_lt_trans x r' x R4 S))]; auto. }
  rewrite E in V. simpl in V. injection V as <-. apply cut_prod_density; auto.
Qed.

(** the function assembled *)
Lemma convprod_struct : 0 <= cont_mass f -> 0 <= cont_mass g -> 0 <= pm f 0 -> 0 <= pm g 0 -> values_sep eps Rmult f g ->
  exists q, convprod eps ueps f g = Ok q /\ good eps (segs q) /\ getSegments (segs q) = cells pval pub /\
    (forall z, z <> 0 -> pm (segs q) z = pm_op Rmult f g z) /\
    pm (segs q) 0 = pm_op Rmult f g 0 + pm f 0 * cont_mass g + pm g 0 * cont_mass f /\
    (forall b, In b (dirac_pos (segs q)) -> end_prod f g b).
Proof.
  intros Cf Cg Zf Zg VS. unfold convprod.
  destruct (splitByPoints_ok eps f cut_points cut_sorted Of Wf Sf) as (f' & -> & E1 & _). cbn [rbind].
  destruct (splitByPoints_ok eps g cut_points cut_sorted Og Wg Sg) as (g' & -> & E2 & _). cbn [rbind]. rewrite E1, E2. clear f' g' E1 E2.
  fold (cut f) (cut g). fold pub. change (fun z x => val (rbind (findSegList (cut f) (cut g) z op_mul) (fun l => convprod_at_point l x))) with pval.
  destruct (assemble_ok eps pval pub pub_good) as (fg & -> & E). cbn [rbind].
  destruct (cells_ok pval pub pub_good) as (C1 & C2 & C3 & C4).
  destruct cutF as (O1 & W1 & _), cutG as (O2 & W2 & _).
  destruct (split_integrable cut_points f cut_sorted Wf If) as (I1 & _). destruct (split_integrable cut_points g cut_sorted Wg Ig) as (I2 & _).
  assert (PF : forall z, pm (cut f) z = pm f z) by (intros; apply split_pm; auto using cut_sorted).
  assert (PG : forall z, pm (cut g) z = pm g z) by (intros; apply split_pm; auto using cut_sorted).
  assert (PO : forall z, pm_op Rmult (cut f) (cut g) z = pm_op Rmult f g z).
  { intros z. unfold pm_op. rewrite <- (pair_sum_diracs _ (cut f) (cut g)), <- (pair_sum_diracs _ f g). unfold cut. rewrite !split_diracs; auto using cut_sorted. }
  assert (AE : forall x m y k, In (DiracSeg x m) f -> In (DiracSeg y k) g -> end_prod f g (x * y)).
  { intros x m y k Hx Hy. exists x, y. splits; auto; left; [exists (DiracSeg x m)|exists (DiracSeg y k)]; simpl; auto. }
  assert (ZE : 0 < pm f 0 \/ 0 < pm g 0 -> end_prod f g 0).
  { destruct (not_zero_cut f Wf Ef) as (p & _ & Hp), (not_zero_cut g Wg Eg) as (r & _ & Hr). intros [H|H].
    - destruct (pm_pos_atom f 0) as (m & Hm); [lra|]. exists 0, r. splits; auto; [left; exists (DiracSeg 0 m); simpl; auto|ring].
    - destruct (pm_pos_atom g 0) as (m & Hm); [lra|]. exists p, 0. splits; auto; [left; exists (DiracSeg 0 m); simpl; auto|ring]. }
  assert (CL : forall x, end_prod f g x -> clear_of (segs fg) x).
  { intros x Hx s Hs D. apply (cells_clear pval pub (segs fg) x); auto using pub_good; [rewrite E; auto|apply pub_fin; auto]. }
  destruct (prod_diracs_ok eps fg (cut f) (cut g) He) as (q & Q1 & Q2 & Q3 & Q4 & Q5 & Q6); auto; try (rewrite E; auto; fail).
  - rewrite E. destruct (Exists_dec (fun s => isDirac s = false) (cut f) (fun s => Bool.bool_dec (isDirac s) false)) as [X|X].
    + left. apply Exists_exists in X. destruct X as (s & Hs & D). destruct (not_zero_cut g Wg Eg) as (r & Zr & Hr).
      intros K. assert (K' : pairs_up pub = []) by (unfold cells in K; destruct (pairs_up pub); auto; discriminate).
      revert K'. apply (pairs_two pub (Rbar_mult (sa s) r) (Rbar_mult (sb s) r)); try apply pub_good.
      * apply pub_In. exists (sa s), r. splits; auto; [apply cut_ends; auto; exists s; auto|apply op_mul_some; auto].
      * apply pub_In. exists (sb s), r. splits; auto; [apply cut_ends; auto; exists s; auto|apply op_mul_some; auto].
      * intros H. apply mult_inj in H; auto. rewrite Forall_forall in W1. pose proof (wf_degenerate s (W1 s Hs) H). congruence.
    + destruct (Exists_dec (fun s => isDirac s = false) (cut g) (fun s => Bool.bool_dec (isDirac s) false)) as [Y|Y].
      * left. apply Exists_exists in Y. destruct Y as (s & Hs & D). destruct (not_zero_cut f Wf Ef) as (r & Zr & Hr).
        intros K. assert (K' : pairs_up pub = []) by (unfold cells in K; destruct (pairs_up pub); auto; discriminate).
        revert K'. apply (pairs_two pub (Rbar_mult (sa s) r) (Rbar_mult (sb s) r)); try apply pub_good.
        -- apply pub_In. exists r, (sa s). splits; auto; [apply cut_ends; auto; exists s; auto|rewrite op_mul_comm; apply op_mul_some; auto].
        -- apply pub_In. exists r, (sb s). splits; auto; [apply cut_ends; auto; exists s; auto|rewrite op_mul_comm; apply op_mul_some; auto].
        -- intros H. apply mult_inj in H; auto. rewrite Forall_forall in W2. pose proof (wf_degenerate s (W2 s Hs) H). congruence.
      * right. assert (A : forall l, Forall wf_seg l -> not_zero l -> ~ Exists (fun s => isDirac s = false) (cut l) -> exists a m, In (DiracSeg a m) (cut l)).
        { intros l Wl Nl Z. destruct (not_zero_cut l Wl Nl) as (p & _ & Hp). apply cut_ends in Hp; auto. destruct Hp as (s & Hs & _).
          destruct (isDirac s) eqn:D; [|exfalso; apply Z; apply Exists_exists; eauto]. destruct s; try discriminate. eauto. }
        destruct (A f Wf Ef X) as (a & m & Ha), (A g Wg Eg Y) as (b & k & Hb). exists a, m, b, k. auto.
  - fold (cut f). rewrite cut_cont_mass; auto.
  - rewrite cut_cont_mass; auto.
  - rewrite PF; auto.
  - rewrite PG; auto.
  - intros x m y k x' m' y' k' H1 H2 H3 H4. apply (cut_atom f) in H1; [|auto]. apply (cut_atom g) in H2; [|auto]. apply (cut_atom f) in H3; [|auto]. apply (cut_atom g) in H4; [|auto]. apply (VS x m y k x' m' y' k'); auto.
  - intros x m y k Hx Hy. apply (cut_atom f) in Hx; [|auto]. apply (cut_atom g) in Hy; [|auto]. apply CL. eauto.
  - rewrite PF, PG. intros PP. split; [apply CL; auto|]. intros x m y k Hx Hy. apply (cut_atom f) in Hx; [|auto]. apply (cut_atom g) in Hy; [|auto]. destruct PP as [H|H].
    + destruct (pm_pos_atom f 0) as (m0 & Hm); [lra|]. destruct (VS x m y k 0 m0 y k) as [K|K]; auto; [left; rewrite K; ring|]. right. replace (x * y) with (x * y - 0 * y) by ring. auto.
    + destruct (pm_pos_atom g 0) as (m0 & Hm); [lra|]. destruct (VS x m y k x m 0 m0) as [K|K]; auto; [left; rewrite K; ring|]. right. replace (x * y) with (x * y - x * 0) by ring. auto.
  - exists q. splits; auto.
    + rewrite Q3, E. auto.
    + intros z Z. rewrite Q4, PO; auto.
    + rewrite Q5, PO, PF, PG, !cut_cont_mass; auto.
    + intros b Hb. apply Q6 in Hb. rewrite PF, PG in Hb. destruct Hb as [(-> & PP)|(x & m & y & k & Hx & Hy & ->)]; auto.
      apply (cut_atom f) in Hx; [|auto]. apply (cut_atom g) in Hy; [|auto]. eauto.
Qed.
End Whole.
