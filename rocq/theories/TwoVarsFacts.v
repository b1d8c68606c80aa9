(** Functions of two dependent variables: the limits of integration. *)
From Coq Require Import Reals Lra List Bool Sorted Permutation.
From Coquelicot Require Import Coquelicot.
From Verif Require Import Base Bisect Seg Piecewise PiecewiseSpec Integral SegInt IntParts IntegralFacts IntPartsFacts Indep AtomFacts Wide IndepAsm ConvolFacts TwoVars TwoVarsSpec.
Import List ListNotations.
Open Scope R_scope.

(** order embedding of the extended line, so that lra can be used *)
Definition em (x : Rbar) : R := match x with Finite r => atan r | p_infty => PI / 2 | m_infty => - PI / 2 end.
Lemma em_lt a b : Rbar_lt a b <-> em a < em b.
Proof.
  pose proof PI_RGT_0. destruct a as [a| |], b as [b| |]; cbn [em Rbar_lt]; try (split; intros; lra);
  try (pose proof (atan_bound a)); try (pose proof (atan_bound b)); try (split; intros; try tauto; lra).
  split; intros K; [apply atan_increasing; auto|]. destruct (Rlt_le_dec a b) as [L|L]; auto.
  destruct L as [L|L]; [apply atan_increasing in L; lra|subst; lra].
Qed.
Lemma em_le a b : Rbar_le a b <-> em a <= em b.
Proof.
  destruct (Rbar_le_lt_dec a b) as [L|L].
  - split; auto. intros _. apply Rbar_le_lt_or_eq_dec in L. destruct L as [L|L]; [apply em_lt in L; lra|subst; lra].
  - split; intros K; [exfalso; eapply Rbar_lt_not_le; eauto|]. apply em_lt in L. lra.
Qed.
Lemma em_max a b : em (bmax a b) = Rmax (em a) (em b).
Proof.
  unfold bmax, Rmax. destruct (bltP a b) as [L|L]; destruct (Rle_dec (em a) (em b)) as [K|K]; auto.
  - apply em_lt in L. lra.
  - apply Rbar_not_lt in L. apply em_le in L. lra.
Qed.
Lemma em_min a b : em (bmin a b) = Rmin (em a) (em b).
Proof.
  unfold bmin, Rmin. destruct (bltP b a) as [L|L]; destruct (Rle_dec (em a) (em b)) as [K|K]; auto.
  - apply em_lt in L. lra.
  - apply Rbar_not_lt in L. apply em_le in L. lra.
Qed.

Lemma iff_false (b : bool) P : (b = true <-> P) -> b = false -> ~ P.
Proof. intros H E K. apply H in K. congruence. Qed.
Ltac mm := repeat match goal with
  | |- context [Rmin ?x ?y] => lazymatch x with context [Rmin _ _] => fail | context [Rmax _ _] => fail | _ => idtac end;
      lazymatch y with context [Rmin _ _] => fail | context [Rmax _ _] => fail | _ => idtac end;
      destruct (Rle_lt_dec x y); [rewrite (Rmin_left x y) by lra|rewrite (Rmin_right x y) by lra]; try (exfalso; lra)
  | |- context [Rmax ?x ?y] => lazymatch x with context [Rmin _ _] => fail | context [Rmax _ _] => fail | _ => idtac end;
      lazymatch y with context [Rmin _ _] => fail | context [Rmax _ _] => fail | _ => idtac end;
      destruct (Rle_lt_dec x y); [rewrite (Rmax_right x y) by lra|rewrite (Rmax_left x y) by lra]; try (exfalso; lra)
  end.
Lemma limits_arith a b c d t (inc pa pb : bool) : a < b ->
  let lo := if inc then c else d in let hi := if inc then d else c in
  (hi <= lo -> b < hi \/ lo < a) -> (pa = true <-> lo < a < hi) -> (pb = true <-> lo < b < hi) ->
  let l := if pa then a else Rmin (Rmax c a) (Rmin d b) in
  let u := if pb then b else Rmax (Rmax c a) (Rmin d b) in
  Rmin (Rmin b (Rmax l u)) (Rmax a (Rmin l u)) < t /\ t < Rmax (Rmin b (Rmax l u)) (Rmax a (Rmin l u)) <-> a < t < b /\ lo < t < hi.
Proof.
  intros AB lo hi D PA PB l u.
  destruct (Rle_lt_dec hi lo) as [H|H]; [specialize (D H); assert (NP : forall x, ~ (lo < x < hi)) by (intros; lra)|clear D];
  destruct pa, pb; unfold l, u;
  try (pose proof (proj1 PA eq_refl) as PA'); try (pose proof (proj1 PB eq_refl) as PB');
  try (pose proof (iff_false _ _ PA eq_refl) as PA'); try (pose proof (iff_false _ _ PB eq_refl) as PB'); clear PA PB l u; try (exfalso; lra);
  destruct inc; unfold lo, hi in *; clear lo hi; try (destruct D as [D|D]); mm; split; intros; lra.
Qed.

(** the part of [ax,bx] on which the curve lies between the two heights *)
Lemma getUL_ok alongx cut (ax bx ay by_ : Rbar) z inc c d : Rbar_lt ax bx -> Rbar_lt ay by_ ->
  cut ay z = Ok (Some c) -> cut by_ z = Ok (Some d) ->
  crosses inc (fun t => alongx t z) ax bx ay c -> crosses inc (fun t => alongx t z) ax bx by_ d ->
  exists L U, getUL alongx cut ax bx ay by_ z = Ok (L, U) /\
    forall t, Rbar_lt (bmin U L) t /\ Rbar_lt t (bmax U L) <->
      Rbar_lt ax t /\ Rbar_lt t bx /\ exists v, alongx t z = Some v /\ Rbar_lt ay v /\ Rbar_lt v by_.
Proof.
  intros Lx Ly C1 C2 X1 X2.
  set (lo := if inc then c else d). set (hi := if inc then d else c).
  assert (IN : forall t, Rbar_le ax t -> Rbar_le t bx -> exists v, alongx t z = Some v /\
    (Rbar_lt ay v /\ Rbar_lt v by_ <-> em lo < em t < em hi) /\ ~ (em hi <= em t <= em lo)).
  { intros t T1 T2. destruct (X1 t T1 T2) as (v & E & V1). destruct (X2 t T1 T2) as (v' & E' & V2). rewrite E in E'. injection E' as <-.
    exists v. split; auto. unfold lo, hi. destruct inc; rewrite !em_lt in *; split; try (split; intros; lra); intros K; lra. }
  destruct (IN ax) as (va & Ea & Ia & _); [apply Rbar_le_refl|apply Rbar_lt_le; auto|].
  destruct (IN bx) as (vb & Eb & Ib & _); [apply Rbar_lt_le; auto|apply Rbar_le_refl|].
  assert (D : em hi <= em lo -> em bx < em hi \/ em lo < em ax).
  { intros H. destruct (Rlt_le_dec (em bx) (em hi)); auto. destruct (Rlt_le_dec (em lo) (em ax)); auto. exfalso.
    destruct (IN (bmax hi ax)) as (v & _ & _ & K).
    - apply em_le. rewrite em_max. apply Rmax_r.
    - apply em_lt in Lx. apply em_le. rewrite em_max. unfold Rmax. destruct (Rle_dec _ _); lra.
    - apply K. rewrite em_max. unfold Rmax. destruct (Rle_dec _ _); lra. }
  set (L0 := if (blt ay va && blt va by_)%bool then ax else bmin (bmax c ax) (bmin d bx)).
  set (U0 := if (blt ay vb && blt vb by_)%bool then bx else bmax (bmax c ax) (bmin d bx)).
  exists (bmax ax (if blt L0 U0 then L0 else U0)), (bmin bx (if blt L0 U0 then U0 else L0)). split.
  - unfold getUL. rewrite C1, C2. cbn [rbind]. rewrite Ea, Eb. cbn [strictly_in rbind from_cuts]. unfold L0, U0.
    destruct (blt ay va && blt va by_)%bool; cbn [rbind]; destruct (blt ay vb && blt vb by_)%bool; cbn [rbind];
    match goal with |- context [if blt ?l ?u then (?l, ?u) else _] => destruct (blt l u) end; reflexivity.
  - intros t.
    assert (EL : em L0 = if (blt ay va && blt va by_)%bool then em ax else Rmin (Rmax (em c) (em ax)) (Rmin (em d) (em bx))).
    { unfold L0. destruct (blt ay va && blt va by_)%bool; auto. rewrite !em_min, em_max. auto. }
    assert (EU : em U0 = if (blt ay vb && blt vb by_)%bool then em bx else Rmax (Rmax (em c) (em ax)) (Rmin (em d) (em bx))).
    { unfold U0. destruct (blt ay vb && blt vb by_)%bool; auto. rewrite !em_max, em_min. auto. }
    assert (BA : (blt ay va && blt va by_)%bool = true <-> em lo < em ax < em hi) by (rewrite andb_true_iff, !blt_true; auto).
    assert (BB : (blt ay vb && blt vb by_)%bool = true <-> em lo < em bx < em hi) by (rewrite andb_true_iff, !blt_true; auto).
    apply em_lt in Lx. rewrite !em_lt, em_max, em_min, em_max, em_min.
    assert (R : em ax < em t /\ em t < em bx /\ (exists v, alongx t z = Some v /\ Rbar_lt ay v /\ Rbar_lt v by_) <-> em ax < em t < em bx /\ em lo < em t < em hi).
    { split.
      - intros (T1 & T2 & v & Ev & V). split; auto. destruct (IN t) as (v' & Ev' & I & _); try (apply em_le; lra). rewrite Ev in Ev'. injection Ev' as <-. apply I; auto.
      - intros ((T1 & T2) & T3). splits; auto. destruct (IN t) as (v' & Ev' & I & _); try (apply em_le; lra). exists v'. split; auto. apply I; auto. }
    rewrite R. clear R.
    assert (EE : em (if blt L0 U0 then L0 else U0) = Rmin (em L0) (em U0) /\ em (if blt L0 U0 then U0 else L0) = Rmax (em L0) (em U0)).
    { destruct (bltP L0 U0) as [K|K]; [apply em_lt in K|apply Rbar_not_lt in K; apply em_le in K]; unfold Rmin, Rmax; destruct (Rle_dec _ _); split; lra. }
    destruct EE as (-> & ->). rewrite EL, EU. clear EL EU IN Ia Ib X1 X2.
    pose proof (limits_arith (em ax) (em bx) (em c) (em d) (em t) inc (blt ay va && blt va by_)%bool (blt ay vb && blt vb by_)%bool Lx) as K.
    unfold lo, hi in *. destruct inc; cbv zeta in K; apply K; auto.
Qed.

(** ** one rectangle *)
Definition ind (s : segment) (t : R) : R := if Rbar_lt_dec (sa s) t then (if Rbar_lt_dec t (sb s) then 1 else 0) else 0.
Lemma ind_in s t : inner s t -> ind s t = 1.
Proof. intros (A & B). unfold ind. destruct (Rbar_lt_dec (sa s) t); [|tauto]. destruct (Rbar_lt_dec t (sb s)); tauto. Qed.
Lemma ind_out s t : ~ inner s t -> ind s t = 0.
Proof. intros N. unfold ind. destruct (Rbar_lt_dec (sa s) t); auto. destruct (Rbar_lt_dec t (sb s)); auto. exfalso. apply N. split; auto. Qed.
Lemma inner_dec s t : inner s t \/ ~ inner s t.
Proof. unfold inner. destruct (Rbar_lt_dec (sa s) t), (Rbar_lt_dec t (sb s)); tauto. Qed.

Section Rect.
Variables (alongx : Rbar -> R -> option Rbar) (cut : Rbar -> R -> res (option Rbar)) (fx jac pdf : R -> R -> R).
Definition integrand (z t : R) : R := pdf t (fx t z) * Rabs (jac t z).
Lemma rect_ok z si sj : wf_seg si -> wf_seg sj -> isDirac si = false -> isDirac sj = false ->
  monotone_curve alongx cut fx z si sj -> curve_integrable pdf fx jac z si sj ->
  exists v, rect_int alongx cut fx jac pdf z si sj = Ok v /\
    has_int (fun t => ind si t * ind sj (fx t z) * integrand z t) m_infty p_infty v.
Proof.
  intros Wi Wj Di Dj ((inc & c & d & C1 & C2 & X1 & X2) & F) CI.
  assert (Li : Rbar_lt (sa si) (sb si)) by (destruct si; try discriminate; auto).
  assert (Lj : Rbar_lt (sa sj) (sb sj)) by (destruct sj; try discriminate; auto).
  destruct (getUL_ok alongx cut _ _ _ _ z inc c d Li Lj C1 C2 X1 X2) as (L & U & E & T).
  assert (T' : forall t : R, Rbar_lt (bmin U L) t /\ Rbar_lt t (bmax U L) <-> inner si t /\ inner sj (fx t z)).
  { intros t. rewrite (T t). unfold inner. split.
    - intros (A & B & v & Ev & V). rewrite (F t (conj A B)) in Ev. injection Ev as <-. tauto.
    - intros ((A & B) & V). splits; auto. exists (Finite (fx t z)). split; auto. apply F. split; auto. }
  unfold rect_int. rewrite E. cbn [rbind fst snd]. destruct (bltP (bmin U L) (bmax U L)) as [K|K]; eexists; (split; [reflexivity|]).
  - apply (has_int_window _ (integrand z)).
    + destruct (bmin U L); simpl; auto.
    + destruct (bmax U L); simpl; auto.
    + apply CI; auto.
    + intros t (A & B). destruct (proj1 (T' t) (conj A B)) as (I1 & I2). rewrite !ind_in by auto. unfold integrand. ring.
    + intros t O. destruct (inner_dec si t) as [I1|I1]; [|rewrite ind_out by auto; ring].
      destruct (inner_dec sj (fx t z)) as [I2|I2]; [|rewrite (ind_out sj) by auto; ring].
      exfalso. destruct (proj2 (T' t) (conj I1 I2)) as (A & B). rewrite !em_lt in *. lra.
  - apply has_int_zero; simpl; auto. intros t _.
    destruct (inner_dec si t) as [I1|I1]; [|rewrite ind_out by auto; ring].
    destruct (inner_dec sj (fx t z)) as [I2|I2]; [|rewrite (ind_out sj) by auto; ring].
    exfalso. destruct (proj2 (T' t) (conj I1 I2)) as (A & B). apply K. apply (Rbar_lt_trans _ t); auto.
Qed.

Lemma rect_sum_ok z (v : segment * segment -> R) l : (forall p, In p l -> isDirac (fst p) = false /\ isDirac (snd p) = false /\
    rect_int alongx cut fx jac pdf z (fst p) (snd p) = Ok (v p)) -> forall i I,
  rect_sum alongx cut fx jac pdf z l i I = Ok (I + sumR (map v l)).
Proof.
  induction l as [|p l IH]; intros H i I; simpl rect_sum.
  - simpl. f_equal. ring.
  - destruct p as (si, sj). destruct (H (si, sj)) as (Di & Dj & E); [simpl; auto|]. cbn [fst snd] in *.
    unfold isSegment. rewrite Di, Dj. cbn [negb andb]. rewrite E. cbn [rmap rbind]. rewrite IH by (intros; apply H; simpl; auto).
    cbn [map]. rewrite sumR_cons. f_equal. ring.
Qed.
End Rect.

Lemma on_support_sum l t : ordered l -> no_atoms l -> on_support l t = sumR (map (fun s => ind s t) l).
Proof.
  intros O. induction O as [|s l O IH F]; intros N.
  - reflexivity.
  - assert (N' : no_atoms l) by (intros x Hx; apply N; simpl; auto). specialize (IH N').
    cbn [map]. rewrite sumR_cons, <- IH. unfold on_support at 1. cbn [existsb]. rewrite (N s) by (simpl; auto).
    destruct (inner_dec s t) as [I|I].
    + rewrite ind_in by auto. destruct I as (A & B). destruct (Rbar_lt_dec (sa s) t); [|tauto]. destruct (Rbar_lt_dec t (sb s)); [|tauto]. cbn [orb].
      replace (on_support l t) with 0; [ring|]. symmetry. unfold on_support.
      replace (existsb _ l) with false; auto. symmetry. apply not_true_is_false. intros K. apply existsb_exists in K. destruct K as (u & Hu & K).
      rewrite (N' u Hu) in K. destruct (Rbar_lt_dec (sa u) t) as [K1|]; [|discriminate].
      rewrite Forall_forall in F. destruct (F u Hu) as (M & _). rewrite em_le in M. rewrite !em_lt in *. lra.
    + rewrite ind_out by auto. unfold on_support. destruct (Rbar_lt_dec (sa s) t) as [A|A]; [destruct (Rbar_lt_dec t (sb s)) as [B|B]|]; cbn [orb]; try ring.
      exfalso. apply I. split; auto.
Qed.
