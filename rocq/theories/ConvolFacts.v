(** Facts about the convolution integrals of sums. *)
From Coq Require Import Reals Lra Lia List Bool Sorted Permutation.
From Coquelicot Require Import Coquelicot.
From Verif Require Import Base Bisect Seg Piecewise PiecewiseSpec Integral IntegralFacts SubstFacts SegInt SegIntSpec IntParts IntPartsFacts Indep IndepSpec AtomFacts AtomFacts3.
Import List ListNotations.
Open Scope R_scope.

(** reflection t -> x - t *)
Definition refl (x : R) (a : Rbar) : Rbar := Rbar_minus x a.
Lemma refl_lt x a b : Rbar_lt (refl x a) (refl x b) <-> Rbar_lt b a.
Proof. destruct a, b; simpl; try tauto; lra. Qed.
Lemma refl_invol x a : refl x (refl x a) = a.
Proof. unfold refl. destruct a; simpl; auto. unfold Rbar_minus; simpl. f_equal. ring. Qed.
Lemma refl_fin x (a : R) : refl x a = Finite (x - a).
Proof. reflexivity. Qed.
Lemma refl_max x a b : refl x (bmax a b) = bmin (refl x a) (refl x b).
Proof.
  unfold bmax, bmin. destruct (bltP a b) as [L|L]; destruct (bltP (refl x b) (refl x a)) as [M|M]; auto; exfalso.
  - apply M. apply refl_lt. auto.
  - apply L. eapply refl_lt; eauto.
Qed.
Lemma refl_min x a b : refl x (bmin a b) = bmax (refl x a) (refl x b).
Proof.
  unfold bmax, bmin. destruct (bltP b a) as [L|L]; destruct (bltP (refl x a) (refl x b)) as [M|M]; auto; exfalso.
  - apply M. apply refl_lt. auto.
  - apply L. eapply refl_lt; eauto.
Qed.

Lemma bmax_comm a b : bmax a b = bmax b a.
Proof.
  unfold bmax. destruct (bltP a b) as [L|L]; destruct (bltP b a) as [M|M]; auto.
  - exfalso. eapply Rbar_lt_not_le; [exact L|]. apply Rbar_lt_le; auto.
  - apply Rbar_not_lt in L. apply Rbar_not_lt in M. apply Rbar_le_antisym; auto.
Qed.
Lemma bmin_comm a b : bmin a b = bmin b a.
Proof.
  unfold bmin. destruct (bltP a b) as [L|L]; destruct (bltP b a) as [M|M]; auto.
  - exfalso. eapply Rbar_lt_not_le; [exact L|]. apply Rbar_lt_le; auto.
  - apply Rbar_not_lt in L. apply Rbar_not_lt in M. apply Rbar_le_antisym; auto.
Qed.
Lemma bmax_lt a b c : Rbar_lt (bmax a b) c <-> Rbar_lt a c /\ Rbar_lt b c.
Proof.
  unfold bmax. destruct (bltP a b) as [L|L].
  - split; [|tauto]. intros H; split; auto. eapply Rbar_lt_trans; eauto.
  - apply Rbar_not_lt in L. split; [|tauto]. intros H; split; auto. eapply Rbar_le_lt_trans; eauto.
Qed.
Lemma bmin_lt a b c : Rbar_lt c (bmin a b) <-> Rbar_lt c a /\ Rbar_lt c b.
Proof.
  unfold bmin. destruct (bltP b a) as [L|L].
  - split; [|tauto]. intros H; split; auto. eapply Rbar_lt_trans; eauto.
  - apply Rbar_not_lt in L. split; [|tauto]. intros H; split; auto. eapply Rbar_lt_le_trans; eauto.
Qed.

Lemma bmax_le a b : Rbar_le a (bmax a b).
Proof. unfold bmax. destruct (bltP a b) as [L|L]; [apply Rbar_lt_le; auto|apply Rbar_le_refl]. Qed.
Lemma bmin_le a b : Rbar_le (bmin a b) a.
Proof. unfold bmin. destruct (bltP b a) as [L|L]; [apply Rbar_lt_le; auto|apply Rbar_le_refl]. Qed.

Lemma bmax_m a : bmax m_infty a = a.
Proof. unfold bmax. destruct (bltP m_infty a) as [L|L]; auto. destruct a; simpl in L; tauto. Qed.
Lemma bmax_m' a : bmax a m_infty = a.
Proof. rewrite bmax_comm. apply bmax_m. Qed.
Lemma bmin_p a : bmin p_infty a = a.
Proof. unfold bmin. destruct (bltP a p_infty) as [L|L]; auto. destruct a; simpl in L; tauto. Qed.
Lemma bmin_p' a : bmin a p_infty = a.
Proof. rewrite bmin_comm. apply bmin_p. Qed.

Lemma refl_int h L U x : integrable h L U ->
  integrable (fun y => h (x - y)) (refl x U) (refl x L) /\ Q (fun y => h (x - y)) (refl x U) (refl x L) = Q h L U.
Proof.
  intros HI. destruct (integrable_prim h L U HI) as (G & P).
  assert (LU : Rbar_lt L U) by apply HI.
  assert (CD : Rbar_lt (refl x U) (refl x L)) by (apply refl_lt; auto).
  destruct (subst_lin h L U G (-1) x (refl x U) (refl x L) P) as (A & B).
  - lra.
  - right. split; [lra|]. unfold dec_onto. split; auto. split; auto. split; [|split].
    + intros y (Y1 & Y2). split.
      * destruct L; simpl in *; auto; lra.
      * destruct U; simpl in *; auto; lra.
    + intros u v _ _ UV. lra.
    + intros t (T1 & T2). exists (x - t). split; [|ring]. split.
      * destruct U; simpl in *; auto; lra.
      * destruct L; simpl in *; auto; lra.
  - assert (E : forall y : R, RbarIn (refl x U) (refl x L) y -> Rabs (-1) * h (-1 * y + x) = h (x - y)).
    { intros y _. rewrite Rabs_left by lra. replace (-1 * y + x) with (x - y) by ring. ring. }
    split.
    + apply (integrable_ext (fun y => Rabs (-1) * h (-1 * y + x))); auto.
    + rewrite <- (Q_ext _ _ _ _ CD E), B. symmetry. apply (prim_Q h L U G); auto using Rbar_le_refl, Rbar_lt_le.
Qed.

Lemma segint_ok fn L U pL pU : integrable fn L U -> (pL && pU)%bool = false \/ (exists l u : R, L = l /\ U = u) ->
  segint fn L U pL pU = Q fn L U.
Proof.
  intros HI HP. assert (LU : Rbar_lt L U) by apply HI. unfold segint.
  destruct (bltP U L) as [K|_]; [exfalso; eapply Rbar_lt_not_le; [exact K|apply Rbar_lt_le; auto]|].
  destruct (beqP L U) as [K|_]; [subst; exfalso; eapply Rbar_lt_not_eq; eauto|].
  destruct (pL && pU)%bool eqn:E; auto. destruct HP as [?|(l & u & -> & ->)]; [discriminate|].
  unfold midp. simpl in *. apply (Q_chasles fn l u); auto; simpl; lra.
Qed.
Lemma fin_and l u : exists l' u' : R, Finite l = l' /\ Finite u = u'.
Proof. eauto. Qed.

Lemma fun_c2_refl si sj x y : fun_c2 si sj x y = fun_c1 si sj x (x - y).
Proof. unfold fun_c2, fun_c1. replace (x - (x - y)) with y by ring. ring. Qed.

(** the two continuous pieces overlap after reflection: limits of the inner integral *)
Definition cLx (x : R) (si sj : segment) : Rbar := bmax (sa si) (refl x (sb sj)).
Definition cUx (x : R) (si sj : segment) : Rbar := bmin (sb si) (refl x (sa sj)).

Lemma conv_cont_ok peps x si sj :
  integrable (fun_c1 si sj x) (cLx x si sj) (cUx x si sj) ->
  conv_cont peps x si sj = Ok (Q (fun_c1 si sj x) (cLx x si sj) (cUx x si sj)).
Proof.
  intros HI. assert (LU := proj1 HI).
  set (L := cLx x si sj) in *. set (U := cUx x si sj) in *.
  destruct (refl_int _ _ _ x HI) as (HI2' & Q2').
  assert (EX : forall y, fun_c1 si sj x (x - y) = fun_c2 si sj x y) by (intros; symmetry; apply fun_c2_refl).
  assert (RR : Rbar_lt (refl x U) (refl x L)) by (apply refl_lt; auto).
  assert (HI2 : integrable (fun_c2 si sj x) (refl x U) (refl x L)).
  { apply (integrable_ext (fun y => fun_c1 si sj x (x - y))); auto. }
  assert (Q2 : Q (fun_c2 si sj x) (refl x U) (refl x L) = Q (fun_c1 si sj x) L U).
  { rewrite <- Q2'. apply Q_ext; auto. }
  clear HI2' Q2'.
  assert (QS : forall l m : Rbar, Rbar_le L l -> Rbar_lt l m -> Rbar_le m U ->
     Q (fun_c2 si sj x) (refl x m) (refl x l) = Q (fun_c1 si sj x) l m /\ integrable (fun_c1 si sj x) l m /\ integrable (fun_c2 si sj x) (refl x m) (refl x l)).
  { intros l m A B C. assert (HS : integrable (fun_c1 si sj x) l m) by (apply (integrable_sub _ L U); auto).
    destruct (refl_int _ _ _ x HS) as (H3 & H4). splits; auto.
    - rewrite <- H4. apply Q_ext; auto. apply refl_lt; auto.
    - apply (integrable_ext (fun y => fun_c1 si sj x (x - y))); auto. }
  assert (ELy : bmax (sa sj) (Rbar_minus x (sb si)) = refl x U).
  { unfold U, cUx. rewrite refl_min, refl_invol, bmax_comm. reflexivity. }
  assert (EUy : bmin (sb sj) (Rbar_minus x (sa si)) = refl x L).
  { unfold L, cLx. rewrite refl_max, refl_invol, bmin_comm. reflexivity. }
  unfold conv_cont. cbv zeta.
  change (bmax (sa si) (Rbar_minus x (sb sj))) with L. change (bmin (sb si) (Rbar_minus x (sa sj))) with U.
  rewrite ELy, EUy.
  (* halves *)
  assert (HALF : forall l u : R, L = l -> U = u ->
     Q (fun_c1 si sj x) L (midp L U) + Q (fun_c2 si sj x) (refl x U) (midp (refl x U) (refl x L)) = Q (fun_c1 si sj x) L U /\
     Q (fun_c1 si sj x) (midp L U) U + Q (fun_c2 si sj x) (midp (refl x U) (refl x L)) (refl x L) = Q (fun_c1 si sj x) L U /\
     integrable (fun_c1 si sj x) L (midp L U) /\ integrable (fun_c1 si sj x) (midp L U) U /\
     integrable (fun_c2 si sj x) (refl x U) (midp (refl x U) (refl x L)) /\
     integrable (fun_c2 si sj x) (midp (refl x U) (refl x L)) (refl x L)).
  { intros l u El Eu. assert (EM : midp (refl x U) (refl x L) = refl x (midp L U)).
    { rewrite El, Eu. unfold midp, refl. simpl. apply f_equal. field. }
    rewrite EM. assert (M1 : Rbar_lt L (midp L U)) by (rewrite El, Eu in *; simpl in *; lra).
    assert (M2 : Rbar_lt (midp L U) U) by (rewrite El, Eu in *; simpl in *; lra).
    destruct (QS (midp L U) U) as (A1 & A2 & A3); auto using Rbar_le_refl, Rbar_lt_le.
    destruct (QS L (midp L U)) as (B1 & B2 & B3); auto using Rbar_le_refl, Rbar_lt_le.
    rewrite A1, B1. splits; auto; [|rewrite Rplus_comm]; apply (Q_chasles _ L U); auto using Rbar_le_refl, Rbar_lt_le. }
  assert (FIN : forall a b l u : Rbar, isinf a = false -> isinf b = false -> Rbar_le a l -> Rbar_lt l u -> Rbar_le u b ->
     exists l' u' : R, l = l' /\ u = u').
  { intros a b l u. destruct a, b, l, u; simpl; try discriminate; try tauto; eauto. }
  assert (LE : Rbar_le (sa si) L) by (unfold L, cLx; apply bmax_le).
  assert (UE : Rbar_le U (sb si)) by (unfold U, cUx; apply bmin_le).
  assert (LE' : Rbar_le (sa sj) (refl x U)) by (rewrite <- ELy; apply bmax_le).
  assert (UE' : Rbar_le (refl x L) (sb sj)) by (rewrite <- EUy; apply bmin_le).
  assert (FX : isinf (sa si) = false -> isinf (sb si) = false -> exists l u : R, L = l /\ U = u) by eauto.
  assert (FY : isinf (sa sj) = false -> isinf (sb sj) = false -> exists l u : R, refl x U = l /\ refl x L = u) by eauto.
  assert (FYX : (exists l u : R, refl x U = l /\ refl x L = u) -> exists l u : R, L = l /\ U = u).
  { intros (l & u & A & B). rewrite <- (refl_invol x L), <- (refl_invol x U), A, B. rewrite !refl_fin. eauto. }
  assert (IA : isinf (sa si) = true -> sa si = m_infty).
  { clear - LE LU. destruct (sa si); try discriminate; auto. destruct L; simpl in *; tauto. }
  assert (IB : isinf (sb si) = true -> sb si = p_infty).
  { clear - UE LU. destruct (sb si); try discriminate; auto. destruct L, U; simpl in *; tauto. }
  assert (JA : isinf (sa sj) = true -> sa sj = m_infty).
  { clear - LE' RR. destruct (sa sj); try discriminate; auto. destruct (refl x U); simpl in *; tauto. }
  assert (JB : isinf (sb sj) = true -> sb sj = p_infty).
  { clear - UE' RR. destruct (sb sj); try discriminate; auto. destruct (refl x U), (refl x L); simpl in *; tauto. }
  assert (CAB : isinf (sa si) = true -> isinf (sb sj) = true ->
    (if blt (babs U) (babs (refl x U)) then Ok (Q (fun_c1 si sj x) m_infty U) else Ok (Q (fun_c2 si sj x) (refl x U) p_infty))
    = Ok (Q (fun_c1 si sj x) L U)).
  { intros A B. assert (E : L = m_infty).
    { unfold L, cLx. rewrite (IA A), (JB B), bmax_m. reflexivity. }
    clearbody L. subst L. destruct (blt _ _); auto. rewrite <- Q2. reflexivity. }
  assert (CBA : isinf (sb si) = true -> isinf (sa sj) = true ->
    (if blt (babs L) (babs (refl x L)) then Ok (Q (fun_c1 si sj x) L p_infty) else Ok (Q (fun_c2 si sj x) m_infty (refl x L)))
    = Ok (Q (fun_c1 si sj x) L U)).
  { intros A B. assert (E : U = p_infty).
    { unfold U, cUx. rewrite (IB A), (JA B), bmin_p. reflexivity. }
    clearbody U. subst U. destruct (blt (babs L) (babs (refl x L))); auto. rewrite <- Q2. reflexivity. }
  assert (CAA : isinf (sa si) = true -> isinf (sa sj) = true -> isinf (sb si) = false -> isinf (sb sj) = false -> exists l u : R, L = l /\ U = u).
  { intros A B C D. unfold L, U, cLx, cUx. rewrite (IA A), (JA B). destruct (sb si) as [b| |]; try discriminate. destruct (sb sj) as [d| |]; try discriminate.
    rewrite ?bmax_m, ?refl_fin. change (refl x m_infty) with p_infty. rewrite bmin_p'. eauto. }
  assert (CBB : isinf (sb si) = true -> isinf (sb sj) = true -> isinf (sa si) = false -> isinf (sa sj) = false -> exists l u : R, L = l /\ U = u).
  { intros A B C D. unfold L, U, cLx, cUx. rewrite (IB A), (JB B). destruct (sa si) as [b| |]; try discriminate. destruct (sa sj) as [d| |]; try discriminate.
    rewrite ?bmin_p, ?refl_fin. change (refl x p_infty) with m_infty. rewrite bmax_m'. eauto. }
  destruct (isinf (sa si)) eqn:ia; destruct (isinf (sb si)) eqn:ib; destruct (isinf (sa sj)) eqn:ja; destruct (isinf (sb sj)) eqn:jb;
    cbn [negb andb orb]; try (specialize (FX eq_refl eq_refl)); try (specialize (FY eq_refl eq_refl); specialize (FYX FY));
    try (specialize (CAB eq_refl eq_refl)); try (specialize (CBA eq_refl eq_refl)); try (exact CAB); try (exact CBA);
    try (match goal with |- context [testConvPole ?pp ?s ?l ?u] => destruct (testConvPole pp s l u) as (p1 & p2) end;
         rewrite segint_ok; auto; rewrite ?Q2; reflexivity).
  - destruct (CAA eq_refl eq_refl eq_refl eq_refl) as (l & u & El & Eu). destruct (HALF l u El Eu) as (H1 & H2 & _).
    rewrite H2. reflexivity.
  - destruct (CBB eq_refl eq_refl eq_refl eq_refl) as (l & u & El & Eu). destruct (HALF l u El Eu) as (H1 & H2 & _).
    rewrite H1. reflexivity.
  - destruct (testConvPole peps si L U) as (p1 & p2). destruct (testConvPole peps sj (refl x U) (refl x L)) as (p3 & p4).
    destruct FX as (l & u & El & Eu). destruct (HALF l u El Eu) as (H1 & H2 & H3 & H4 & H5 & H6).
    assert (F1 : exists l u : R, L = l /\ U = u) by eauto.
    destruct ((p1 || p4) && (p2 || p3))%bool.
    + destruct (rlt 0 x); rewrite !segint_ok; auto; rewrite ?H1, ?H2; reflexivity.
    + destruct (p1 || p2)%bool; [|destruct (p3 || p4)%bool]; rewrite segint_ok; auto; rewrite ?Q2; reflexivity.
Qed.

(** ** Sums over pairs of pieces *)
Lemma sum_pairs_val F v l : (forall p, In p l -> F (fst p) (snd p) = Ok (v p)) -> forall I,
  sum_pairs F l I = Ok (I + sumR (map v l)).
Proof.
  induction l as [|p l IH]; intros H I; simpl; [f_equal; ring|].
  rewrite H by (simpl; auto). simpl. rewrite IH by (intros; apply H; simpl; auto). f_equal. ring.
Qed.
Lemma sumR_filter {A} (c : A -> bool) (v : A -> R) l : sumR (map v (filter c l)) = sumR (map (fun p => if c p then v p else 0) l).
Proof.
  induction l as [|p l IH]; auto. simpl filter. simpl map at 2. rewrite sumR_cons, <- IH. destruct (c p); [reflexivity|ring].
Qed.
Lemma sumR_pairs (w : segment * segment -> R) f g :
  sumR (map w (seg_pairs f g)) = sumR (map (fun si => sumR (map (fun sj => w (si, sj)) g)) f).
Proof.
  unfold seg_pairs. induction f as [|s f IH]; auto. simpl flat_map. rewrite map_app, sumR_app, IH, map_map. reflexivity.
Qed.
Lemma seg_pairs_In f g p : In p (seg_pairs f g) <-> In (fst p) f /\ In (snd p) g.
Proof.
  unfold seg_pairs. rewrite in_flat_map. split.
  - intros (s & Hs & H). apply in_map_iff in H. destruct H as (t & <- & Ht). auto.
  - intros (H1 & H2). exists (fst p). split; auto. apply in_map_iff. exists (snd p). destruct p; auto.
Qed.

Lemma dens_sum l t : dens l t = sumR (map (fun s => dens1 s t) l).
Proof. reflexivity. Qed.
Lemma dens_prod f g t u : dens f t * dens g u = sumR (map (fun p => dens1 (fst p) t * dens1 (snd p) u) (seg_pairs f g)).
Proof.
  rewrite sumR_pairs, !dens_sum. rewrite Rmult_comm, <- sumR_scal. apply sumR_ext. intros s _.
  rewrite Rmult_comm, <- sumR_scal. reflexivity.
Qed.
Lemma dens1_in s (t : R) : isDirac s = false -> Rbar_lt (sa s) t -> Rbar_lt t (sb s) -> dens1 s t = sf s t.
Proof.
  intros D A B. unfold dens1. rewrite D. destruct (Rbar_lt_dec (sa s) t); [|contradiction]. destruct (Rbar_lt_dec t (sb s)); auto; contradiction.
Qed.
Lemma dens1_out s (t : R) : ~ (Rbar_lt (sa s) t /\ Rbar_lt t (sb s)) -> dens1 s t = 0.
Proof.
  intros N. unfold dens1. destruct (isDirac s); auto. destruct (Rbar_lt_dec (sa s) t); auto. destruct (Rbar_lt_dec t (sb s)); auto. tauto.
Qed.
Lemma dens1_dirac s t : isDirac s = true -> dens1 s t = 0.
Proof. intros D. unfold dens1. rewrite D. auto. Qed.

Lemma has_int_null h : (forall t, h t = 0) -> has_int h m_infty p_infty 0.
Proof. intros H. apply has_int_zero; simpl; auto. Qed.

(** ** The density of a sum *)
Definition addrel (x : R) (si sj : segment) : bool :=
  (blt (sa sj) (Rbar_minus x (sa si)) && blt (Rbar_minus x (sb si)) (sb sj))%bool.

Lemma addrel_spec x si sj : addrel x si sj = true <-> Rbar_lt (sa sj) (refl x (sa si)) /\ Rbar_lt (refl x (sb si)) (sb sj).
Proof. unfold addrel. rewrite andb_true_iff, !blt_true. reflexivity. Qed.

Lemma refl_lt_l x a b : Rbar_lt a (refl x b) <-> Rbar_lt b (refl x a).
Proof. rewrite <- (refl_invol x a) at 1. apply refl_lt. Qed.
Lemma refl_lt_r x a b : Rbar_lt (refl x a) b <-> Rbar_lt (refl x b) a.
Proof. rewrite <- (refl_invol x b) at 1. apply refl_lt. Qed.

Lemma overlap x si sj : wf_seg si -> wf_seg sj -> isDirac si = false -> isDirac sj = false ->
  addrel x si sj = true -> Rbar_lt (cLx x si sj) (cUx x si sj).
Proof.
  intros Wi Wj Di Dj R. apply addrel_spec in R. destruct R as (R1 & R2).
  assert (A : Rbar_lt (sa si) (sb si)) by (destruct si; auto; discriminate).
  assert (B : Rbar_lt (sa sj) (sb sj)) by (destruct sj; auto; discriminate).
  unfold cLx, cUx. apply bmax_lt. split; apply bmin_lt; split; auto.
  - apply refl_lt_l; auto.
  - apply refl_lt_r; auto.
  - apply refl_lt; auto.
Qed.
Lemma overlap_in x si sj (t : R) : Rbar_lt (cLx x si sj) t /\ Rbar_lt t (cUx x si sj) <->
  Rbar_lt (sa si) t /\ Rbar_lt t (sb si) /\ Rbar_lt (sa sj) (x - t) /\ Rbar_lt (x - t) (sb sj).
Proof.
  unfold cLx, cUx. rewrite bmax_lt, bmin_lt. rewrite <- !(refl_fin x t).
  rewrite (refl_lt_r x (sb sj) t), (refl_lt_l x t (sa sj)). tauto.
Qed.
Lemma overlap_none x si sj (t : R) : addrel x si sj = false ->
  Rbar_lt (sa si) t -> Rbar_lt t (sb si) -> Rbar_lt (sa sj) (x - t) -> Rbar_lt (x - t) (sb sj) -> False.
Proof.
  intros N A B C D. assert (addrel x si sj = true); [|congruence]. apply addrel_spec. rewrite <- (refl_fin x t) in *. split.
  - eapply Rbar_lt_trans; [exact C|]. apply refl_lt; auto.
  - eapply Rbar_lt_trans; [|exact D]. apply refl_lt; auto.
Qed.

(** value of one pair *)
Definition pair_val (x : R) (si sj : segment) : R :=
  if isDirac si then (if isDirac sj then 0 else smass si * sf sj (x - spos si))
  else if isDirac sj then smass sj * sf si (x - spos sj)
  else Q (fun_c1 si sj x) (cLx x si sj) (cUx x si sj).

Lemma conv_pair_val peps x f g si sj : Forall wf_seg f -> Forall wf_seg g -> sums_integrable f g x ->
  In si f -> In sj g -> addrel x si sj = true -> conv_pair peps x si sj = Ok (pair_val x si sj).
Proof.
  intros Wf Wg HI Hi Hj R. rewrite Forall_forall in Wf, Wg. unfold conv_pair, pair_val, isSegment.
  destruct (isDirac si) eqn:Di; destruct (isDirac sj) eqn:Dj; cbn [negb andb]; auto.
  apply conv_cont_ok. apply (HI si sj); auto.
  - apply overlap; auto.
  - intros t. apply overlap_in.
Qed.

Lemma pair_val_int x f g si sj : Forall wf_seg f -> Forall wf_seg g -> sums_integrable f g x -> In si f -> In sj g ->
  exists I, has_int (fun t => dens1 si t * dens1 sj (x - t)) m_infty p_infty I /\
    (if addrel x si sj then pair_val x si sj else 0) = I + match si with DiracSeg a m => m * dens1 sj (x - a) | _ => 0 end
      + match sj with DiracSeg b k => k * dens1 si (x - b) | _ => 0 end.
Proof.
  intros Wf Wg HI Hi Hj. rewrite Forall_forall in Wf, Wg.
  destruct (isDirac si) eqn:Di.
  - exists 0. split; [apply has_int_null; intros; rewrite dens1_dirac; auto; ring|].
    unfold pair_val. rewrite Di. destruct si as [| | | |a m|]; try discriminate.
    destruct (isDirac sj) eqn:Dj.
    + destruct sj as [| | | |b k|]; try discriminate. rewrite !dens1_dirac by auto. destruct (addrel _ _ _); ring.
    + assert (E : (if addrel x (DiracSeg a m) sj then smass (DiracSeg a m) * sf sj (x - spos (DiracSeg a m)) else 0) = m * dens1 sj (x - a)).
      { unfold spos. cbn [sa real smass]. destruct (addrel x (DiracSeg a m) sj) eqn:R.
        - apply addrel_spec in R. cbn [sa sb] in R. rewrite !refl_fin in R. rewrite dens1_in; tauto.
        - rewrite dens1_out; [ring|]. intros (A & B). assert (addrel x (DiracSeg a m) sj = true); [|congruence].
          apply addrel_spec. auto. }
      rewrite E. destruct sj; try discriminate; ring.
  - destruct (isDirac sj) eqn:Dj.
    + exists 0. split; [apply has_int_null; intros; rewrite (dens1_dirac sj); auto; ring|].
      unfold pair_val. rewrite Di, Dj. destruct sj as [| | | |b k|]; try discriminate.
      assert (E : (if addrel x si (DiracSeg b k) then smass (DiracSeg b k) * sf si (x - spos (DiracSeg b k)) else 0) = k * dens1 si (x - b)).
      { unfold spos. cbn [sa real smass]. destruct (addrel x si (DiracSeg b k)) eqn:R.
        - apply addrel_spec in R. cbn [sa sb] in R. rewrite (refl_lt_l x b), (refl_lt_r x (sb si)), !refl_fin in R. rewrite dens1_in; tauto.
        - rewrite dens1_out; [ring|]. intros (A & B). assert (addrel x si (DiracSeg b k) = true); [|congruence].
          apply addrel_spec. cbn [sa sb]. rewrite (refl_lt_l x b), (refl_lt_r x (sb si)). auto. }
      rewrite E. destruct si; try discriminate; ring.
    + exists (if addrel x si sj then pair_val x si sj else 0). split.
      * destruct (addrel x si sj) eqn:R.
        -- unfold pair_val. rewrite Di, Dj. apply has_int_window.
           ++ destruct (cLx x si sj); simpl; auto.
           ++ destruct (cUx x si sj); simpl; auto.
           ++ apply (HI si sj); auto; [apply overlap; auto|intros t; apply overlap_in].
           ++ intros t T. apply overlap_in in T. unfold fun_c1. rewrite !dens1_in; tauto.
           ++ intros t T. destruct (Rbar_lt_dec (sa si) t) as [A|A]; [|rewrite (dens1_out si); [ring|tauto]].
              destruct (Rbar_lt_dec t (sb si)) as [B|B]; [|rewrite (dens1_out si); [ring|tauto]].
              rewrite (dens1_out sj); [ring|]. intros (C & D).
              assert (K := proj2 (overlap_in x si sj t) (conj A (conj B (conj C D)))). destruct K as (K1 & K2).
              destruct T as [T|T]; eapply Rbar_lt_not_le; try exact T; apply Rbar_lt_le; auto.
        -- apply has_int_null. intros t.
           destruct (Rbar_lt_dec (sa si) t) as [A|A]; [|rewrite (dens1_out si); [ring|tauto]].
           destruct (Rbar_lt_dec t (sb si)) as [B|B]; [|rewrite (dens1_out si); [ring|tauto]].
           rewrite (dens1_out sj); [ring|]. intros (C & D). eapply overlap_none; eauto.
      * destruct si, sj; try discriminate; ring.
Qed.

Lemma addrel_cell f g z x si sj : Forall wf_seg f -> Forall wf_seg g -> same_sum_cell f g z x -> In si f -> In sj g ->
  addrel z si sj = addrel x si sj.
Proof.
  intros Wf Wg C Hi Hj.
  assert (K : forall p q : Rbar, is_end f p -> is_end g q -> (Rbar_lt q (refl z p) <-> Rbar_lt q (refl x p)) /\ (Rbar_lt (refl z p) q <-> Rbar_lt (refl x p) q)).
  { intros p q Hp Hq. destruct p as [p| |], q as [q| |]; simpl; try tauto.
    destruct (C p q Hp Hq) as [(A & B)|(A & B)]; lra. }
  apply eq_true_iff_eq. rewrite !addrel_spec.
  assert (E : is_end f (sa si) /\ is_end f (sb si) /\ is_end g (sa sj) /\ is_end g (sb sj)) by (unfold is_end; splits; eauto).
  destruct E as (E1 & E2 & E3 & E4).
  destruct (K _ _ E1 E3) as (K1 & _). destruct (K _ _ E2 E4) as (_ & K2). tauto.
Qed.

Lemma atom_sum_dens f g (h : R -> R) : 
  sumR (map (fun p => match fst p with DiracSeg a m => m * dens1 (snd p) (h a) | _ => 0 end) (seg_pairs f g)) = atom_sum (fun a => dens g (h a)) f.
Proof.
  rewrite sumR_pairs. unfold atom_sum. apply sumR_ext. intros s _. cbn [fst snd].
  destruct s; try (apply sumR_zero; intros v Hv; apply in_map_iff in Hv; destruct Hv as (? & <- & _); auto).
  rewrite dens_sum, <- sumR_scal. reflexivity.
Qed.
Lemma atom_sum_dens' f g (h : R -> R) : 
  sumR (map (fun p => match snd p with DiracSeg a m => m * dens1 (fst p) (h a) | _ => 0 end) (seg_pairs f g)) = atom_sum (fun a => dens f (h a)) g.
Proof.
  rewrite <- atom_sum_dens. rewrite !sumR_pairs. cbn [fst snd]. apply sumR_swap.
Qed.

Lemma conv_value peps f g z x : Forall wf_seg f -> Forall wf_seg g -> sums_integrable f g x -> same_sum_cell f g z x ->
  exists v, conv_at_point peps (findSegListAdd f g z) x = Ok v /\ sum_density f g x v.
Proof.
  intros Wf Wg HI C. unfold conv_at_point.
  assert (EF : findSegListAdd f g z = filter (fun p => addrel x (fst p) (snd p)) (seg_pairs f g)).
  { unfold findSegListAdd. apply filter_ext_in. intros p Hp. apply seg_pairs_In in Hp. destruct Hp.
    apply (addrel_cell f g); auto. }
  rewrite EF. exists (0 + sumR (map (fun p => pair_val x (fst p) (snd p)) (filter (fun p => addrel x (fst p) (snd p)) (seg_pairs f g)))). split.
  - apply (sum_pairs_val _ (fun p => pair_val x (fst p) (snd p))). intros p Hp. apply filter_In in Hp. destruct Hp as (Hp & R).
    apply seg_pairs_In in Hp. destruct Hp. apply (conv_pair_val peps x f g); auto.
  - rewrite Rplus_0_l, (sumR_filter (fun p => addrel x (fst p) (snd p)) (fun p => pair_val x (fst p) (snd p))).
    unfold sum_density.
    assert (CH : forall l, (forall p, In p l -> In (fst p) f /\ In (snd p) g) -> exists I,
       has_int (fun t => sumR (map (fun p => dens1 (fst p) t * dens1 (snd p) (x - t)) l)) m_infty p_infty I /\
       sumR (map (fun p => if addrel x (fst p) (snd p) then pair_val x (fst p) (snd p) else 0) l) =
        I + sumR (map (fun p => match fst p with DiracSeg a m => m * dens1 (snd p) (x - a) | _ => 0 end) l)
          + sumR (map (fun p => match snd p with DiracSeg b k => k * dens1 (fst p) (x - b) | _ => 0 end) l)).
    { induction l as [|p l IH]; intros Hl.
      - exists 0. split; [apply has_int_null; auto|simpl; ring].
      - destruct IH as (I1 & H1 & E1); [intros; apply Hl; simpl; auto|].
        destruct (Hl p) as (Hi & Hj); [simpl; auto|].
        destruct (pair_val_int x f g (fst p) (snd p)) as (I2 & H2 & E2); auto.
        exists (I2 + I1). split.
        + eapply has_int_ext; [exact (has_int_plus _ _ _ _ _ H2 _ H1)|]. intros t. simpl map. rewrite sumR_cons. reflexivity.
        + cbn [map]. rewrite !sumR_cons, E1, E2. ring. }
    destruct (CH (seg_pairs f g)) as (I & H & E); [intros p Hp; apply seg_pairs_In; auto|].
    exists I. split.
    + eapply has_int_ext; [exact H|]. intros t. symmetry. apply dens_prod.
    + rewrite E, (atom_sum_dens f g (fun a => x - a)), (atom_sum_dens' f g (fun a => x - a)). reflexivity.
Qed.
