(** Facts about the discrete parts of independent arithmetic. *)
From Coq Require Import Reals Lra List Bool Sorted Permutation.
From Coquelicot Require Import Coquelicot.
From Verif Require Import Base Bisect Seg Piecewise PiecewiseSpec PiecewiseFacts PiecewiseFacts2 PiecewiseFacts3 PiecewiseFacts4 Integral IntegralFacts SegInt SegIntSpec SegIntFacts CumintFacts SegIntMain Indep IndepSpec.
Import List ListNotations.
Open Scope R_scope.

Lemma sumR_cons x l : sumR (x :: l) = x + sumR l.
Proof. reflexivity. Qed.
Definition pm1 (z : R) (s : segment) : R := match s with DiracSeg a m => if Req_EM_T a z then m else 0 | _ => 0 end.
Lemma pm_cons s l z : pm (s :: l) z = pm1 z s + pm l z.
Proof. reflexivity. Qed.
Lemma pm_app l1 l2 z : pm (l1 ++ l2) z = pm l1 z + pm l2 z.
Proof. unfold pm. rewrite map_app, sumR_app. auto. Qed.
Lemma sumR_perm l l' : Permutation l l' -> sumR l = sumR l'.
Proof. induction 1; simpl; lra. Qed.
Lemma pm_perm l l' z : Permutation l l' -> pm l z = pm l' z.
Proof. intros P. unfold pm. apply sumR_perm, Permutation_map; auto. Qed.
Lemma atom_mass_perm l l' : Permutation l l' -> atom_mass l = atom_mass l'.
Proof. intros P. unfold atom_mass. apply sumR_perm, Permutation_map; auto. Qed.

Lemma pm_getDiracs l z : pm (getDiracs l) z = pm l z.
Proof.
  induction l as [|s l IH]; auto. unfold getDiracs in *. simpl filter. rewrite pm_cons.
  destruct s; simpl; try (rewrite IH; lra). rewrite pm_cons, IH. reflexivity.
Qed.
Lemma atom_mass_getDiracs l : atom_mass (getDiracs l) = atom_mass l.
Proof.
  unfold atom_mass. induction l as [|s l IH]; auto. unfold getDiracs in *. simpl filter.
  destruct s; simpl; rewrite IH; lra.
Qed.

Lemma discrete_wf l : discrete l -> Forall wf_seg l.
Proof. apply Forall_impl. intros s. destruct s; simpl; auto; discriminate. Qed.

(** ** one insertion into a list of atoms *)
Lemma merge_dirac_some eps a m l l' : merge_dirac eps a m l = Some l' ->
  exists a' m', Rabs (a - a') <= eps /\ In (DiracSeg a' m') l /\
    (forall z, pm l' z = pm l z + if Req_EM_T a' z then m else 0) /\
    map (fun s => (sa s, sb s)) l' = map (fun s => (sa s, sb s)) l /\ (discrete l -> discrete l') /\ dirac_pos l' = dirac_pos l.
Proof.
  revert l'. induction l as [|s l IH]; intros l' H; simpl in H; [discriminate|].
  destruct s as [| | | |a0 m0|];
  try (destruct (merge_dirac eps a m l) as [r|] eqn:E; [|discriminate]; injection H as <-;
       destruct (IH _ eq_refl) as (a' & m' & H1 & H2 & H3 & H4 & H5 & H6); exists a', m';
       splits; simpl; auto; [intros z; rewrite !pm_cons, H3; ring|rewrite H4; auto|
         intros D; inversion D; subst; constructor; auto; apply H5; auto]; fail).
  destruct (rleP (Rabs (a - a0)) eps) as [L|L].
  - injection H as <-. exists a0, m0. splits; simpl; auto.
    + intros z. rewrite !pm_cons. simpl. destruct (Req_EM_T a0 z); ring.
    + intros D. inversion D; subst. constructor; auto.
  - destruct (merge_dirac eps a m l) as [r|] eqn:E; [|discriminate]. injection H as <-.
    destruct (IH _ eq_refl) as (a' & m' & H1 & H2 & H3 & H4 & H5 & H6). exists a', m'.
    splits; simpl; auto.
    + intros z. rewrite !pm_cons, H3. simpl. destruct (Req_EM_T a0 z); ring.
    + rewrite H4. auto.
    + intros D. inversion D; subst. constructor; auto. apply H5; auto.
    + rewrite H6. auto.
Qed.

Lemma add_atom eps p (a m : R) : 0 <= eps -> ordered (segs p) -> discrete (segs p) ->
  exists q a', addSegment eps p (DiracSeg a m) = Ok q /\ Rabs (a - a') <= eps /\
    ((forall b, In b (dirac_pos (segs p)) -> a = b \/ eps < Rabs (a - b)) -> a' = a) /\
    ordered (segs q) /\ discrete (segs q) /\
    (forall z, pm (segs q) z = pm (segs p) z + if Req_EM_T a' z then m else 0) /\
    (forall b, In b (dirac_pos (segs q)) <-> b = a' \/ In b (dirac_pos (segs p))).
Proof.
  intros He O D. destruct (merge_dirac eps a m (segs p)) as [l|] eqn:E.
  - destruct (merge_dirac_some _ _ _ _ _ E) as (a' & m' & H1 & H2 & H3 & H4 & H5 & H6).
    exists (PW l (brks p)), a'. unfold addSegment. rewrite E. cbn [segs]. splits; auto.
    + intros S. destruct (S a') as [->|L]; auto; [apply dirac_pos_In; eauto|]. lra.
    + eapply ordered_ends; eauto.
    + intros b. rewrite H6. split; auto. intros [->|H]; auto. apply dirac_pos_In; eauto.
  - assert (S : forall b, In b (dirac_pos (segs p)) -> eps < Rabs (a - b)).
    { intros b Hb. apply dirac_pos_In in Hb. destruct Hb as (k & Hb). revert E Hb. generalize (segs p).
      induction l as [|s l IH]; intros E []; simpl in E.
      - subst s. destruct (rleP (Rabs (a - b)) eps); [discriminate|lra].
      - destruct s; try (destruct (merge_dirac eps a m l); [discriminate|]; auto; fail).
        destruct (rleP (Rabs (a - a0)) eps); [discriminate|].
        destruct (merge_dirac eps a m l); [discriminate|]; auto. }
    destruct (addSegment_compatible eps p (DiracSeg a m) O (discrete_wf _ D) I) as (l1 & l2 & E0 & P1 & P2 & E1 & E2).
    { intros t Ht. unfold discrete in D. rewrite Forall_forall in D. pose proof (D t Ht) as Dt.
      destruct t as [| | | |b k|]; try discriminate.
      assert (Q := S b (proj2 (dirac_pos_In _ _) (ex_intro _ k Ht))).
      assert (a <> b). { intros ->. replace (b - b) with 0 in Q by lra. rewrite Rabs_R0 in Q. lra. }
      split; auto. unfold before; cbn. destruct (Rle_or_lt a b); [left|right]; split; auto; try lra; congruence. }
    assert (Pm : Permutation (DiracSeg a m :: segs p) (l1 ++ DiracSeg a m :: l2)).
    { rewrite E0. apply Permutation_middle. }
    exists (add_sorted p (DiracSeg a m)), a. rewrite E2. splits; auto.
    + rewrite Rminus_diag_eq, Rabs_R0; auto.
    + apply SS_insert; auto. rewrite <- E0. auto.
    + eapply Permutation_Forall; [exact Pm|]. constructor; auto.
    + intros z. rewrite <- (pm_perm _ _ z Pm), pm_cons. simpl. ring.
    + intros b. rewrite E0, !dirac_pos_app, !in_app_iff. simpl. intuition.
Qed.

(** insertion of many atoms at different positions *)
Lemma add_keys eps d : forall p, 0 <= eps -> ordered (segs p) -> discrete (segs p) -> NoDup (map fst d) ->
  exists q (h : R -> R), addAll eps p (map (fun kv => DiracSeg (fst kv) (snd kv)) d) = Ok q /\
    ordered (segs q) /\ discrete (segs q) /\ (forall k, Rabs (k - h k) <= eps) /\
    (forall z, pm (segs q) z = pm (segs p) z + sumR (map (fun kv => (if Req_EM_T (h (fst kv)) z then 1 else 0) * snd kv) d)) /\
    ((forall a b, In a (map fst d) -> In b (map fst d) \/ In b (dirac_pos (segs p)) -> a = b \/ eps < Rabs (a - b)) ->
     (forall k, h k = k) /\ forall b, In b (dirac_pos (segs q)) <-> In b (map fst d) \/ In b (dirac_pos (segs p))).
Proof.
  induction d as [|[k v] d IH]; intros p He O D N.
  - exists p, (fun k => k). simpl. splits; auto.
    + intros k. rewrite Rminus_diag_eq, Rabs_R0; auto.
    + intros; ring.
    + intros _. split; auto. intros b. tauto.
  - cbn [map fst] in N. inversion N as [|? ? N1 N2]; subst.
    destruct (add_atom eps p k v He O D) as (p1 & a' & E1 & H1 & S1 & O1 & D1 & M1 & P1).
    destruct (IH p1 He O1 D1 N2) as (q & h & Q1 & Q2 & Q3 & Q4 & Q5 & Q6).
    exists q, (fun x => if Req_EM_T x k then a' else h x). splits; auto.
    + cbn [addAll map fst snd]. rewrite E1. simpl. auto.
    + intros x. destruct (Req_EM_T x k) as [->|]; auto.
    + intros z. rewrite Q5, M1. cbn [map fst snd]. rewrite sumR_cons.
      destruct (Req_EM_T k k) as [_|C]; [|congruence].
      rewrite (sumR_ext (fun kv => (if Req_EM_T (if Req_EM_T (fst kv) k then a' else h (fst kv)) z then 1 else 0) * snd kv)
                 (fun kv => (if Req_EM_T (h (fst kv)) z then 1 else 0) * snd kv)).
      * destruct (Req_EM_T a' z); ring.
      * intros [k' v'] Hk. cbn [fst snd]. destruct (Req_EM_T k' k) as [->|]; auto.
        destruct N1. apply in_map_iff. exists (k, v'). auto.
    + intros S. assert (a' = k). { apply S1. intros b Hb. apply S; simpl; auto. }
      subst a'. destruct Q6 as (Q6 & Q7).
      { intros a b Ha [Hb|Hb].
        - apply S; simpl; auto.
        - apply P1 in Hb. destruct Hb as [->|Hb]; apply S; simpl; auto. }
      split.
      * intros x. destruct (Req_EM_T x k) as [->|]; auto.
      * intros b. rewrite Q7, P1. simpl. intuition.
Qed.

(** ** the dictionary *)
Lemma dict_add_sum (w : R -> R) k v d :
  sumR (map (fun kv => w (fst kv) * snd kv) (dict_add k v d)) = sumR (map (fun kv => w (fst kv) * snd kv) d) + w k * v.
Proof.
  induction d as [|[k' v'] d IH]; simpl; [lra|].
  destruct (reqP k k') as [->|N]; simpl; [lra|]. rewrite IH. lra.
Qed.
Lemma dict_add_keys k v d x : In x (map fst (dict_add k v d)) <-> x = k \/ In x (map fst d).
Proof.
  induction d as [|[k' v'] d IH]; simpl; [intuition|].
  destruct (reqP k k') as [->|N]; simpl; [intuition|]. rewrite IH. intuition.
Qed.
Lemma dict_add_nodup k v d : NoDup (map fst d) -> NoDup (map fst (dict_add k v d)).
Proof.
  induction d as [|[k' v'] d IH]; simpl; intros N; [repeat constructor; auto|].
  inversion N; subst. destruct (reqP k k') as [->|Nk]; simpl; constructor; auto.
  rewrite dict_add_keys. intros [C|C]; congruence.
Qed.

Lemma dict_fold (op : R -> R -> R) (w : R -> R) l : forall d,
  sumR (map (fun kv => w (fst kv) * snd kv)
    (fold_left (fun d p => dict_add (op (spos (fst p)) (spos (snd p))) (smass (fst p) * smass (snd p)) d) l d))
  = sumR (map (fun kv => w (fst kv) * snd kv) d)
    + sumR (map (fun p => w (op (spos (fst p)) (spos (snd p))) * (smass (fst p) * smass (snd p))) l).
Proof.
  induction l as [|p l IH]; intros d; simpl; [ring|]. rewrite IH, dict_add_sum. ring.
Qed.

Lemma dict_fold_keys (op : R -> R -> R) l : forall d, NoDup (map fst d) ->
  let d' := fold_left (fun d p => dict_add (op (spos (fst p)) (spos (snd p))) (smass (fst p) * smass (snd p)) d) l d in
  NoDup (map fst d') /\
  (forall x, In x (map fst d') <-> In x (map fst d) \/ exists p, In p l /\ x = op (spos (fst p)) (spos (snd p))).
Proof.
  induction l as [|p l IH]; intros d N; simpl.
  - split; auto. intros x. split; auto. intros [H|(p & [] & _)]; auto.
  - destruct (IH _ (dict_add_nodup (op (spos (fst p)) (spos (snd p))) (smass (fst p) * smass (snd p)) d N)) as (I1 & I2).
    split; auto. intros x. rewrite I2, dict_add_keys. split.
    + intros [[->|H]|(q & Q1 & Q2)]; eauto.
    + intros [H|(q & [<-|Q1] & Q2)]; eauto.
Qed.

Lemma dirac_pairs_In f g si sj : In (si, sj) (dirac_pairs f g) <->
  In si f /\ isDirac si = true /\ In sj g /\ isDirac sj = true.
Proof.
  unfold dirac_pairs. rewrite in_flat_map. unfold getDiracs. split.
  - intros (fi & H1 & H2). apply in_map_iff in H2. destruct H2 as (gi & E & H2). injection E as <- <-.
    apply filter_In in H1. apply filter_In in H2. tauto.
  - intros (H1 & H2 & H3 & H4). exists si. split; [apply filter_In; auto|].
    apply in_map_iff. exists sj. split; auto. apply filter_In; auto.
Qed.

Lemma dirac_pairs_sum (w : R -> R -> R) f g :
  sumR (map (fun p => w (spos (fst p)) (spos (snd p)) * (smass (fst p) * smass (snd p))) (dirac_pairs f g))
  = pair_sum w f g.
Proof.
  unfold dirac_pairs, pair_sum. induction f as [|s f IH]; auto.
  unfold getDiracs in *. cbn [filter].
  assert (Z : isDirac s = false -> sumR (map (fun sj => match s, sj with DiracSeg x m, DiracSeg y k => w x y * (m * k) | _, _ => 0 end) g) = 0).
  { clear IH. intros D. induction g; simpl; auto. rewrite IHg. destruct s; try ring; discriminate. }
  destruct (isDirac s) eqn:D.
  - cbn [flat_map]. rewrite map_app, sumR_app, IH. cbn [map]. rewrite sumR_cons. f_equal.
    destruct s as [| | | |x m|]; try discriminate.
    clear IH Z. rewrite map_map. induction g as [|t g IHg]; auto.
    cbn [filter]. destruct t; cbn [isDirac map]; rewrite ?sumR_cons, IHg; cbn [fst snd spos smass sa real]; lra.
  - rewrite IH. cbn [map]. rewrite sumR_cons, Z; auto. ring.
Qed.

Lemma pair_sum_ext w w' f g : (forall x m y k, In (DiracSeg x m) f -> In (DiracSeg y k) g -> w x y = w' x y) ->
  pair_sum w f g = pair_sum w' f g.
Proof.
  intros H. unfold pair_sum. apply sumR_ext. intros si Hi. apply sumR_ext. intros sj Hj.
  destruct si as [| | | |x m|]; auto. destruct sj as [| | | |y k|]; auto. rewrite (H x m y k); auto.
Qed.

Lemma pair_sum_one f g : pair_sum (fun _ _ => 1) f g = atom_mass f * atom_mass g.
Proof.
  unfold pair_sum, atom_mass.
  assert (K : forall si, sumR (map (fun sj => match si, sj with DiracSeg _ m, DiracSeg _ k => 1 * (m * k) | _, _ => 0 end) g)
              = smass si * sumR (map smass g)).
  { intros si. rewrite <- sumR_scal. apply sumR_ext. intros sj _. destruct si; destruct sj; simpl; ring. }
  rewrite (sumR_ext _ (fun si => sumR (map smass g) * smass si)).
  - rewrite sumR_scal. ring.
  - intros si _. rewrite K. ring.
Qed.

Lemma discrete_atom_mass l : discrete l -> forall ps, NoDup ps -> (forall a, In a (dirac_pos l) -> In a ps) ->
  atom_mass l = sumR (map (pm l) ps).
Proof.
  intros D. induction D as [|s l Ds D IH]; intros ps N H.
  - unfold atom_mass, pm. simpl. induction ps; simpl; auto. rewrite <- IHps; [lra| |]; [inversion N; auto|intros ? []].
  - destruct s as [| | | |a m|]; try discriminate. unfold atom_mass. simpl map. rewrite sumR_cons. fold (atom_mass l).
    rewrite (IH ps N) by (intros; apply H; simpl; auto).
    rewrite (sumR_ext (pm (DiracSeg a m :: l)) (fun z => (if Req_EM_T a z then m else 0) + pm l z)) by (intros; apply pm_cons).
    rewrite sumR_plus. f_equal. simpl. assert (Ha : In a ps) by (apply H; simpl; auto).
    clear - N Ha. induction ps as [|b ps IH]; [destruct Ha|]. inversion N; subst. simpl map. rewrite sumR_cons.
    destruct Ha as [->|Ha].
    + destruct (Req_EM_T a a); [|congruence].
      rewrite (sumR_ext _ (fun _ => 0 * 1)).
      * rewrite sumR_scal. ring.
      * intros x Hx. destruct (Req_EM_T a x); [subst; contradiction|ring].
    + rewrite <- IH; auto. destruct (Req_EM_T a b); [subst; contradiction|ring].
Qed.

Lemma ordered_discrete_nodup l : ordered l -> discrete l -> NoDup (dirac_pos l).
Proof.
  induction l as [|s l IH]; intros O D; [constructor|].
  apply StronglySorted_inv in O. destruct O as (O & F). inversion D as [|? ? Ds Dl]; subst.
  destruct s as [| | | |a m|]; try discriminate. simpl. constructor; auto.
  intros C. apply dirac_pos_In in C. destruct C as (k & C). rewrite Forall_forall in F.
  destruct (F _ C) as (_ & K). apply K. reflexivity.
Qed.

Lemma convdiracs_mass eps op f g q : convdiracs eps op f g = Ok q -> atom_mass (segs q) = atom_mass f * atom_mass g.
Proof.
  intros E. unfold convdiracs in E. apply addAll_mass in E. rewrite E. unfold atom_mass at 1. simpl map. simpl sumR.
  rewrite <- pair_sum_one, <- dirac_pairs_sum.
  pose proof (dict_fold op (fun _ => 1) (dirac_pairs f g) []) as K. simpl map in K. simpl sumR in K.
  unfold convdiracs_dict. unfold atom_mass. rewrite map_map.
  rewrite (sumR_ext (fun x : R * R => smass (DiracSeg (fst x) (snd x))) (fun kv => 1 * snd kv)) by (intros; simpl; ring).
  rewrite K. ring.
Qed.

Lemma convdiracs_ok eps op f g : 0 <= eps ->
  exists q (h : R -> R), convdiracs eps op f g = Ok q /\ ordered (segs q) /\ discrete (segs q) /\
    (forall k, Rabs (k - h k) <= eps) /\
    (forall z, pm (segs q) z = pair_sum (fun x y => if Req_EM_T (h (op x y)) z then 1 else 0) f g) /\
    (values_sep eps op f g -> (forall k, h k = k) /\
      forall b, In b (dirac_pos (segs q)) <-> exists x m y k, In (DiracSeg x m) f /\ In (DiracSeg y k) g /\ b = op x y).
Proof.
  intros He. unfold convdiracs.
  destruct (dict_fold_keys op (dirac_pairs f g) [] (NoDup_nil _)) as (N & K).
  assert (K' : forall x, In x (map fst (convdiracs_dict op f g)) <->
            exists a m b k, In (DiracSeg a m) f /\ In (DiracSeg b k) g /\ x = op a b).
  { intros x. unfold convdiracs_dict. rewrite K. split.
    - intros [[]|((si & sj) & P & ->)]. apply dirac_pairs_In in P. destruct P as (P1 & P2 & P3 & P4).
      destruct si as [| | | |a m|]; try discriminate. destruct sj as [| | | |b k|]; try discriminate. exists a, m, b, k. auto.
    - intros (a & m & b & k & H1 & H2 & ->). right. exists (DiracSeg a m, DiracSeg b k). split; auto.
      apply dirac_pairs_In. auto. }
  destruct (add_keys eps (convdiracs_dict op f g) empty_pwf He) as (q & h & Q1 & Q2 & Q3 & Q4 & Q5 & Q6).
  { constructor. } { constructor. } { exact N. }
  exists q, h. splits; auto.
  - intros z. rewrite Q5. unfold pm at 1. simpl map at 1. simpl sumR at 1.
    unfold convdiracs_dict. rewrite (dict_fold op (fun k => if Req_EM_T (h k) z then 1 else 0)).
    rewrite dirac_pairs_sum with (w := fun x y => if Req_EM_T (h (op x y)) z then 1 else 0). simpl. ring.
  - intros S. destruct Q6 as (Q6 & Q7).
    { intros a b Ha [Hb|[]]. apply K' in Ha. apply K' in Hb.
      destruct Ha as (x & m & y & k & H1 & H2 & ->). destruct Hb as (x' & m' & y' & k' & H3 & H4 & ->). eapply S; eauto. }
    split; auto. intros b. rewrite Q7. simpl. rewrite K'. tauto.
Qed.
