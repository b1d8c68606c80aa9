(** The law of a function from its density and its atoms. *)
From Coq Require Import Reals Lra Lia List Bool Sorted Permutation.
From Coquelicot Require Import Coquelicot.
From Verif Require Import Base Bisect Seg Piecewise PiecewiseSpec PiecewiseFacts Integral IntegralFacts SegInt SegIntSpec IntParts IntPartsFacts Indep IndepSpec AtomFacts AtomFacts2 AtomFacts3 ConvolFacts QuotFacts QuotFacts2 ProdAsmFacts.
From Verif Require TransformSpec TransformFacts.
Import List ListNotations.
Open Scope R_scope.
Notation prob := TransformSpec.prob.
Notation pprob := TransformSpec.pprob.
Notation rmaxb := TransformSpec.rmaxb.
Notation rminb := TransformSpec.rminb.

(** ** atoms *)
Definition between_ind (u v : Rbar) (x : R) : R := if Rbar_lt_dec u x then if Rbar_lt_dec x v then 1 else 0 else 0.
Lemma pprob_parts l u v : pprob l u v = pprob (getSegments l) u v + watom (between_ind u v) l.
Proof.
  unfold TransformSpec.pprob, watom, getSegments. induction l as [|s l IH]; [simpl; ring|].
  cbn [map filter]. rewrite !sumR_cons, IH.
  destruct s; cbn [isSegment isDirac negb]; cbn iota; cbn [map]; rewrite ?sumR_cons; try ring.
  cbn [TransformSpec.prob]. unfold between_ind. destruct (Rbar_lt_dec u a); [destruct (Rbar_lt_dec a v)|]; ring.
Qed.
Lemma watom_cons w s l : watom w (s :: l) = match s with DiracSeg x m => w x * m | _ => 0 end + watom w l.
Proof. unfold watom. cbn [map]. apply sumR_cons. Qed.
Lemma sumR_zeros (qs : list R) : sumR (map (fun _ : R => 0) qs) = 0.
Proof. induction qs as [|q qs IH]; auto. cbn [map]. rewrite sumR_cons, IH. ring. Qed.
Lemma watom_positions h l : forall ps, NoDup ps -> (forall a, In a (dirac_pos l) -> In a ps) -> watom h l = sumR (map (fun z => h z * pm l z) ps).
Proof.
  induction l as [|s l IH]; intros ps N H.
  - rewrite (sumR_ext _ (fun z => 0)); [rewrite sumR_zeros; reflexivity|]. intros z _. unfold pm. simpl. ring.
  - rewrite watom_cons, (IH ps N) by (intros a Ha; apply H; destruct s; simpl; auto).
    rewrite (sumR_ext (fun z => h z * pm (s :: l) z) (fun z => (match s with DiracSeg a m => if Req_EM_T a z then h z * m else 0 | _ => 0 end) + h z * pm l z)).
    2: { intros z _. rewrite pm_cons. destruct s; unfold pm1; try ring. destruct (Req_EM_T a z); ring. }
    rewrite sumR_plus. f_equal.
    destruct s as [| | | |a m|]; try (rewrite sumR_zeros; auto).
    assert (Ha : In a ps) by (apply H; simpl; auto). clear - N Ha. induction ps as [|b ps IH]; [destruct Ha|]. inversion N; subst. cbn [map]. rewrite sumR_cons.
    destruct Ha as [->|Ha].
    + destruct (Req_EM_T a a); [|congruence]. rewrite (sumR_ext _ (fun _ => 0)); [rewrite sumR_zeros; ring|].
      intros x Hx. destruct (Req_EM_T a x); [subst; contradiction|auto].
    + rewrite <- IH; auto. destruct (Req_EM_T a b); [subst; contradiction|ring].
Qed.
Lemma watom_scaled h q f k c : c <> 0 -> (forall z, pm q z = k * pm f (z / c)) -> watom h q = k * watom (fun x => h (x * c)) f.
Proof.
  intros C E. set (ps := nodup Req_EM_T (dirac_pos f ++ map (fun z => z / c) (dirac_pos q))).
  rewrite (watom_positions h q (map (fun x => x * c) ps)), (watom_positions _ f ps), <- sumR_scal, map_map.
  - apply sumR_ext. intros x _. rewrite E. replace (x * c / c) with x by (field; auto). ring.
  - apply NoDup_nodup.
  - intros a Ha. apply nodup_In, in_app_iff. auto.
  - apply FinFun.Injective_map_NoDup; [|apply NoDup_nodup]. intros x y H. apply Rmult_eq_reg_r in H; auto.
  - intros a Ha. apply in_map_iff. exists (a / c). split; [field; auto|]. apply nodup_In, in_app_iff. right. apply in_map_iff. eauto.
Qed.

(** ** continuous part *)
Lemma cont_law l u v : Rbar_lt u v -> Forall wf_seg l -> Forall TransformSpec.has_int l -> has_int (dens l) u v (pprob (getSegments l) u v).
Proof.
  intros L W H.
  assert (E : pprob (getSegments l) u v = sumR (map (fun s => if isDirac s then 0 else prob s u v) l)).
  { unfold TransformSpec.pprob, getSegments. clear. induction l as [|s l IH]; auto. cbn [map filter]. rewrite sumR_cons, <- IH.
    unfold isSegment. destruct (isDirac s); cbn [negb]; cbn iota; cbn [map]; rewrite ?sumR_cons; ring. }
  rewrite E. eapply has_int_ext; [|intros t; symmetry; apply dens_sum].
  apply (has_int_sum (fun s => dens1 s)); auto. intros s Hs. rewrite Forall_forall in W, H. specialize (H s Hs). specialize (W s Hs).
  unfold TransformSpec.has_int in H. unfold dens1. destruct (isDirac s) eqn:D; [apply has_int_zero; auto|]. specialize (H eq_refl).
  assert (P : prob s u v = if Rbar_lt_dec (rmaxb u (sa s)) (rminb v (sb s)) then Q (sf s) (rmaxb u (sa s)) (rminb v (sb s)) else 0).
  { destruct s; try discriminate; cbn [TransformSpec.prob]; destruct (Rbar_lt_dec _ _); auto; rewrite Q_RInt_gen; auto. }
  rewrite P. clear P E. unfold TransformSpec.rmaxb, TransformSpec.rminb.
  set (lo := if Rbar_le_dec u (sa s) then sa s else u). set (hi := if Rbar_le_dec v (sb s) then v else sb s).
  assert (L1 : Rbar_le u lo /\ Rbar_le (sa s) lo).
  { unfold lo. destruct (Rbar_le_dec u (sa s)) as [K|K]; split; auto using Rbar_le_refl. apply Rbar_not_le in K. apply Rbar_lt_le; auto. }
  assert (L2 : Rbar_le hi v /\ Rbar_le hi (sb s)).
  { unfold hi. destruct (Rbar_le_dec v (sb s)) as [K|K]; split; auto using Rbar_le_refl. apply Rbar_not_le in K. apply Rbar_lt_le; auto. }
  assert (L3 : forall t : R, Rbar_lt lo t <-> Rbar_lt u t /\ Rbar_lt (sa s) t).
  { intros t. unfold lo. destruct (Rbar_le_dec u (sa s)) as [K|K].
    - split; [intros T; split; auto; apply (Rbar_le_lt_trans u (sa s) t); auto|tauto].
    - apply Rbar_not_le in K. split; [intros T; split; auto; apply (Rbar_lt_trans (sa s) u t); auto|tauto]. }
  assert (L4 : forall t : R, Rbar_lt t hi <-> Rbar_lt t v /\ Rbar_lt t (sb s)).
  { intros t. unfold hi. destruct (Rbar_le_dec v (sb s)) as [K|K].
    - split; [intros T; split; auto; apply (Rbar_lt_le_trans t v (sb s)); auto|tauto].
    - apply Rbar_not_le in K. split; [intros T; split; auto; apply (Rbar_lt_trans t (sb s) v); auto|tauto]. }
  clearbody lo hi. destruct (Rbar_lt_dec lo hi) as [LH|LH].
  - apply (has_int_ext_in (fun t => if Rbar_lt_dec lo t then if Rbar_lt_dec t hi then sf s t else 0 else 0)).
    + apply has_int_window; try tauto.
      * apply (integrable_sub _ (sa s) (sb s)); tauto.
      * intros t (T1 & T2). destruct (Rbar_lt_dec lo t); [|tauto]. destruct (Rbar_lt_dec t hi); tauto.
      * intros t T. destruct (Rbar_lt_dec lo t) as [A|A]; auto. destruct (Rbar_lt_dec t hi) as [B|B]; auto. exfalso.
        destruct T as [T|T]; [apply (Rbar_lt_not_eq t t (Rbar_lt_trans t lo t T A))|apply (Rbar_lt_not_eq t t (Rbar_lt_trans t hi t B T))]; auto.
    + intros t (T1 & T2). specialize (L3 t). specialize (L4 t). destruct (Rbar_lt_dec lo t), (Rbar_lt_dec (sa s) t); try tauto.
      destruct (Rbar_lt_dec t hi), (Rbar_lt_dec t (sb s)); tauto.
  - apply has_int_zero; auto. intros t (T1 & T2). destruct (Rbar_lt_dec (sa s) t) as [A|A]; auto. destruct (Rbar_lt_dec t (sb s)) as [B|B]; auto.
    exfalso. apply LH. apply (Rbar_lt_trans lo t hi); [apply L3|apply L4]; auto.
Qed.
