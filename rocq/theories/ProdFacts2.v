(** The values of the density of a product. *)
From Coq Require Import Reals Lra Lia List Bool Sorted Permutation.
From Coquelicot Require Import Coquelicot.
From Verif Require Import Base Bisect Seg Piecewise PiecewiseSpec PiecewiseFacts Integral IntegralFacts SegInt SegIntSpec IntParts IntPartsFacts Indep IndepSpec AtomFacts AtomFacts2 AtomFacts3 ConvolFacts PairFacts ExtrFacts QuotFacts ProdFacts.
Import List ListNotations.
Open Scope R_scope.

(** ** All quadrants *)
Lemma opp_le0 b : Rbar_le b 0 -> Rbar_le 0 (Rbar_opp b).
Proof. destruct b; simpl; auto. lra. Qed.
Lemma rel4_meet a1 b1 a2 b2 z : (Rbar_le 0 a1 \/ Rbar_le b1 0) -> (Rbar_le 0 a2 \/ Rbar_le b2 0) -> endsok a1 b1 -> endsok a2 b2 ->
  (Rbar_lt a1 b1 \/ Rbar_lt a2 b2) -> z <> 0 -> rel4 a1 b1 a2 b2 z <-> meet4 a1 b1 a2 b2 z.
Proof.
  intros H1 H2 E1 E2 ND Z.
  assert (Z' : - z <> 0) by lra.
  destruct H1 as [H1|H1], H2 as [H2|H2].
  - apply first_quadrant; auto.
  - rewrite <- rel_r, <- meet_r. apply first_quadrant; auto using opp_le0, endsok_opp. rewrite opp_lt. auto.
  - rewrite <- rel_l, <- meet_l. apply first_quadrant; auto using opp_le0, endsok_opp. rewrite opp_lt. auto.
  - rewrite <- rel_r, <- rel_l, <- meet_r, <- meet_l. apply first_quadrant; auto using opp_le0, endsok_opp; [rewrite !opp_lt; auto|lra].
Qed.
Lemma wf_endsok s : wf_seg s -> endsok (sa s) (sb s).
Proof. unfold endsok. destruct s; simpl; intros H; auto. right. exists a. auto. Qed.
Lemma takes_btw s x : wf_seg s -> takes s x <-> btw (sa s) (sb s) x.
Proof.
  unfold takes, btw. intros W. destruct (isDirac s) eqn:D.
  - destruct s as [| | | |a m|]; try discriminate. cbn [sa sb]. split; [intros ->; auto|]. intros [(H1 & H2)|(H1 & H2)]; auto. simpl in *. exfalso. lra.
  - assert (L : Rbar_lt (sa s) (sb s)) by (destruct s; auto; discriminate). split; auto.
    intros [H|(H1 & H2)]; auto. exfalso. rewrite H1, H2 in L. simpl in L. lra.
Qed.
Lemma prodrel_takes z si sj : z <> 0 -> wf_seg si -> wf_seg sj -> one_sided si -> one_sided sj -> (isDirac si = false \/ isDirac sj = false) ->
  prodrel z si sj = true <-> exists x y : R, takes si x /\ takes sj y /\ z = x * y.
Proof.
  intros Z Wi Wj Oi Oj ND. rewrite prodrel_true, rel4_meet; auto using wf_endsok.
  - split; intros (x & y & H1 & H2 & H3); exists x, y; splits; auto; apply takes_btw; auto.
  - destruct ND as [D|D]; [left; destruct si|right; destruct sj]; auto; discriminate.
Qed.
Lemma prodrel_both z a m b k : prodrel z (DiracSeg a m) (DiracSeg b k) = false.
Proof.
  destruct (prodrel z (DiracSeg a m) (DiracSeg b k)) eqn:E; auto. apply prodrel_true in E. exfalso.
  destruct E as ((r & (p & q & Hp & Hq & E) & H) & (r' & (p' & q' & Hp' & Hq' & E') & H')). cbn [sa sb] in *.
  assert (p = Finite a) by tauto. assert (q = Finite b) by tauto. assert (p' = Finite a) by tauto. assert (q' = Finite b) by tauto. subst.
  simpl in E, E'. injection E as <-. injection E' as <-. simpl in *. lra.
Qed.
Lemma finite_end s : wf_seg s -> one_sided s -> exists r : R, sa s = r \/ sb s = r.
Proof.
  intros W [H|H].
  - destruct (endsok_nn _ _ H (wf_endsok s W)) as (r & E & _). eauto.
  - destruct (endsok_nn _ _ (opp_le0 _ H) (endsok_opp _ _ (wf_endsok s W))) as (r & E & _). exists (- r). right.
    rewrite <- (Rbar_opp_involutive (sb s)), E. auto.
Qed.
Lemma corners_ne si sj : wf_seg si -> wf_seg sj -> one_sided si -> one_sided sj -> corners op_mul si sj <> [].
Proof.
  intros Wi Wj Oi Oj. destruct (finite_end si Wi Oi) as (p & Hp), (finite_end sj Wj Oj) as (q & Hq).
  assert (K : In (Finite (p * q)) (corners op_mul si sj)). { apply corners_In. exists p, q. splits; auto; destruct Hp, Hq; auto. }
  intros E. rewrite E in K. auto.
Qed.

(** ** Cells *)
Lemma op_mul_fin p q r : op_mul p q = Some r -> (exists x y : R, p = x /\ q = y /\ r = x * y) \/ r = p_infty \/ r = m_infty.
Proof.
  destruct p as [p| |], q as [q| |]; unfold op_mul; intros E; try (left; exists p, q; splits; auto; rewrite mul_fin in E; congruence); right;
  try (destruct (reqP p 0) as [|N]; [discriminate|]); try (destruct (reqP q 0) as [|N]; [discriminate|]); inj_r E; auto.
  - destruct (Rlt_dec 0 p); [rewrite (proj1 (mul_p_inf p ltac:(lra)))|rewrite (proj1 (mul_n_inf p ltac:(lra)))]; auto.
  - destruct (Rlt_dec 0 p); [rewrite (proj2 (mul_p_inf p ltac:(lra)))|rewrite (proj2 (mul_n_inf p ltac:(lra)))]; auto.
  - rewrite Rbar_mult_comm. destruct (Rlt_dec 0 q); [rewrite (proj1 (mul_p_inf q ltac:(lra)))|rewrite (proj1 (mul_n_inf q ltac:(lra)))]; auto.
  - rewrite Rbar_mult_comm. destruct (Rlt_dec 0 q); [rewrite (proj2 (mul_p_inf q ltac:(lra)))|rewrite (proj2 (mul_n_inf q ltac:(lra)))]; auto.
Qed.
Lemma prodrel_cell f g z x si sj : same_prod_cell f g z x -> In si f -> In sj g -> prodrel z si sj = prodrel x si sj.
Proof.
  intros (_ & C) Hi Hj.
  assert (K : forall r, In r (corners op_mul si sj) -> (Rbar_lt r z <-> Rbar_lt r x) /\ (Rbar_lt z r <-> Rbar_lt x r)).
  { intros r Hr. apply corners_In in Hr. destruct Hr as (p & q & Hp & Hq & E). apply op_mul_fin in E.
    destruct E as [(u & v & -> & -> & ->)|[-> | ->]]; try (simpl; tauto).
    assert (S : same_side (u * v) z x). { apply C; [exists si; split; auto; destruct Hp; auto|exists sj; split; auto; destruct Hq; auto]. }
    simpl. unfold same_side in S. split; split; intros; lra. }
  unfold prodrel. f_equal.
  - apply eq_true_iff_eq. rewrite !existsb_exists. split; intros (r & H1 & H2); exists r; split; auto; apply blt_true in H2; apply blt_true; apply (K r H1); auto.
  - apply eq_true_iff_eq. rewrite !existsb_exists. split; intros (r & H1 & H2); exists r; split; auto; apply blt_true in H2; apply blt_true; apply (K r H1); auto.
Qed.
Lemma findProd_rel f g z x : Forall wf_seg f -> Forall wf_seg g -> Forall one_sided f -> Forall one_sided g -> same_prod_cell f g z x ->
  findSegList f g z op_mul = Ok (filter (fun p => prodrel x (fst p) (snd p)) (seg_pairs f g)).
Proof.
  intros Wf Wg Of Og C. unfold findSegList. rewrite Forall_forall in *. apply filter_res_ok.
  intros p Hp. apply seg_pairs_In in Hp. destruct Hp. rewrite pair_relevant_prod by (apply corners_ne; auto).
  f_equal. apply (prodrel_cell f g z x); auto.
Qed.

(** ** The window of integration *)
Lemma sgn_pos s : wf_seg s -> isDirac s = false -> Rbar_le 0 (sa s) -> bsign (Rbar_plus (sa s) (sb s)) = 1.
Proof.
  intros W D H. assert (L : Rbar_lt (sa s) (sb s)) by (destruct s; auto; discriminate).
  destruct (sa s) as [a| |]; simpl in H; try tauto; destruct (sb s) as [b| |]; simpl in L; try tauto; simpl; auto.
  destruct (rltP 0 (a + b)); auto. exfalso; lra.
Qed.
Lemma sgn_neg s : wf_seg s -> isDirac s = false -> Rbar_le (sb s) 0 -> bsign (Rbar_plus (sa s) (sb s)) = -1.
Proof.
  intros W D H. assert (L : Rbar_lt (sa s) (sb s)) by (destruct s; auto; discriminate).
  destruct (sa s) as [a| |]; simpl in L; try tauto; destruct (sb s) as [b| |]; simpl in H, L; try tauto; simpl; auto.
  destruct (rltP 0 (a + b)); [exfalso; lra|]. destruct (rltP (a + b) 0); auto. exfalso; lra.
Qed.
Lemma babs_pos a : Rbar_le 0 a -> babs a = a.
Proof. destruct a; simpl; try tauto. intros. rewrite Rabs_right; auto. lra. Qed.
Lemma babs_neg a : Rbar_le a 0 -> babs a = Rbar_opp a.
Proof. destruct a; simpl; try tauto. intros. rewrite Rabs_left1; auto. Qed.
Lemma xdiv_opp x e : x <> 0 -> xdiv (- x) e = Rbar_opp (xdiv x e).
Proof.
  intros X. destruct e as [e| |]; unfold xdiv.
  - destruct (reqP e 0).
    + destruct (rltP 0 x), (rltP 0 (- x)); auto; exfalso; lra.
    + simpl. f_equal. field. auto.
  - simpl. f_equal. ring.
  - simpl. f_equal. ring.
Qed.
Lemma opp_flip_l a (t : R) : Rbar_lt (Rbar_opp a) t <-> Rbar_lt (- t) a.
Proof. rewrite <- (Rbar_opp_involutive (Finite t)), opp_lt. simpl. tauto. Qed.
Lemma opp_flip_r a (t : R) : Rbar_lt t (Rbar_opp a) <-> Rbar_lt a (- t).
Proof. rewrite <- (Rbar_opp_involutive (Finite t)), opp_lt. simpl. tauto. Qed.

Section Window.
Variables (si sj : segment) (x : R).
Hypothesis X : x <> 0.
Hypothesis Wi : wf_seg si.
Hypothesis Wj : wf_seg sj.
Hypothesis Oi : one_sided si.
Hypothesis Oj : one_sided sj.
Hypothesis Di : isDirac si = false.
Hypothesis Dj : isDirac sj = false.

Lemma prod_window : prodrel x si sj = true ->
  exists L U, prod_pair x si sj = Ok (segint (prod_funi si sj x) L U false false) /\
    forall t : R, Rbar_lt L t /\ Rbar_lt t U <-> Rbar_lt (sa si) t /\ Rbar_lt t (sb si) /\ Rbar_lt (sa sj) (x / t) /\ Rbar_lt (x / t) (sb sj).
Proof.
  intros R. apply prodrel_takes in R; auto. destruct R as (s & t0 & Hs & Ht & E).
  unfold takes in Hs, Ht. rewrite Di in Hs. rewrite Dj in Ht.
  unfold prod_pair, isSegment. rewrite Di, Dj. cbn [negb andb].
  destruct Oi as [P|P], Oj as [P'|P'].
  - rewrite (sgn_pos si), (sgn_pos sj) by auto.
    assert (0 <= s). { apply (Rbar_le_trans 0 (sa si) s); auto. apply Rbar_lt_le. tauto. }
    assert (0 <= t0). { apply (Rbar_le_trans 0 (sa sj) t0); auto. apply Rbar_lt_le. tauto. }
    assert (XP : 0 < x) by nra.
    destruct (rltP 0 (1 * 1)); [|lra]. destruct (rltP 0 x); [|lra].
    assert (PB : Rbar_le 0 (sb sj)). { apply (Rbar_le_trans 0 (sa sj)); auto. destruct sj; simpl in *; try lra; auto; discriminate. }
    rewrite !babs_pos, Rmult_1_l by auto. eexists _, _. split; [reflexivity|].
    intros t. rewrite bmax_lt, bmin_lt.
    destruct (Rbar_lt_dec (sa si) t) as [T|T]; [|tauto].
    assert (T0 : 0 < t) by (apply (Rbar_le_lt_trans 0 (sa si) t); auto).
    destruct (xdiv_lt x (sa sj) t XP P' T0) as (_ & K1). destruct (xdiv_lt x (sb sj) t XP PB T0) as (K2 & _). tauto.
  - rewrite (sgn_pos si), (sgn_neg sj) by auto.
    assert (0 <= s). { apply (Rbar_le_trans 0 (sa si) s); auto. apply Rbar_lt_le. tauto. }
    assert (t0 <= 0). { apply (Rbar_le_trans t0 (sb sj) 0); auto. apply Rbar_lt_le. tauto. }
    assert (XN : x < 0) by nra.
    destruct (rltP 0 (1 * -1)); [exfalso; lra|]. destruct (rltP x 0); [|lra].
    assert (PB : Rbar_le (sa sj) 0). { apply (Rbar_le_trans (sa sj) (sb sj)); auto. destruct sj; simpl in *; try lra; auto; discriminate. }
    rewrite !babs_neg by auto. replace (- (1) * x) with (- x) by ring. eexists _, _. split; [reflexivity|].
    intros t. rewrite bmax_lt, bmin_lt.
    destruct (Rbar_lt_dec (sa si) t) as [T|T]; [|tauto].
    assert (T0 : 0 < t) by (apply (Rbar_le_lt_trans 0 (sa si) t); auto).
    assert (XN' : 0 < - x) by lra.
    destruct (xdiv_lt (- x) _ t XN' (opp_le0 _ PB) T0) as (K1 & _). destruct (xdiv_lt (- x) _ t XN' (opp_le0 _ P') T0) as (_ & K2).
    rewrite K1, K2, opp_flip_l, opp_flip_r. replace (- (- x / t)) with (x / t) by (field; lra). tauto.
  - rewrite (sgn_neg si), (sgn_pos sj) by auto.
    assert (s <= 0). { apply (Rbar_le_trans s (sb si) 0); auto. apply Rbar_lt_le. tauto. }
    assert (0 <= t0). { apply (Rbar_le_trans 0 (sa sj) t0); auto. apply Rbar_lt_le. tauto. }
    assert (XN : x < 0) by nra.
    destruct (rltP 0 (-1 * 1)); [exfalso; lra|]. destruct (rltP x 0); [|lra].
    assert (PB : Rbar_le 0 (sb sj)). { apply (Rbar_le_trans 0 (sa sj)); auto. destruct sj; simpl in *; try lra; auto; discriminate. }
    rewrite !babs_pos by auto. replace (- -1 * x) with (- - x) by ring. rewrite !xdiv_opp by lra. eexists _, _. split; [reflexivity|].
    intros t. rewrite bmax_lt, bmin_lt.
    destruct (Rbar_lt_dec t (sb si)) as [T|T]; [|tauto].
    assert (T0 : t < 0) by (apply (Rbar_lt_le_trans t (sb si) 0); auto).
    assert (XN' : 0 < - x) by lra. assert (T0' : 0 < - t) by lra.
    rewrite <- !xdiv_opp by lra. rewrite (xdiv_opp (- x)), (xdiv_opp (- x)), opp_flip_l, opp_flip_r by lra.
    destruct (xdiv_lt (- x) _ (- t) XN' P' T0') as (_ & K1). destruct (xdiv_lt (- x) _ (- t) XN' PB T0') as (K2 & _).
    rewrite K1, K2. replace (- x / - t) with (x / t) by (field; lra). tauto.
  - rewrite (sgn_neg si), (sgn_neg sj) by auto.
    assert (s <= 0). { apply (Rbar_le_trans s (sb si) 0); auto. apply Rbar_lt_le. tauto. }
    assert (t0 <= 0). { apply (Rbar_le_trans t0 (sb sj) 0); auto. apply Rbar_lt_le. tauto. }
    assert (XP : 0 < x) by nra.
    destruct (rltP 0 (-1 * -1)); [|exfalso; lra]. destruct (rltP 0 x); [|lra].
    assert (PB : Rbar_le (sa sj) 0). { apply (Rbar_le_trans (sa sj) (sb sj)); auto. destruct sj; simpl in *; try lra; auto; discriminate. }
    rewrite !babs_neg by auto. replace (-1 * x) with (- x) by ring. eexists _, _. split; [reflexivity|].
    intros t. rewrite bmax_lt, bmin_lt.
    destruct (Rbar_lt_dec t (sb si)) as [T|T]; [|tauto].
    assert (T0 : t < 0) by (apply (Rbar_lt_le_trans t (sb si) 0); auto). assert (T0' : 0 < - t) by lra.
    rewrite !xdiv_opp, opp_flip_l, opp_flip_r by lra.
    destruct (xdiv_lt x _ (- t) XP (opp_le0 _ PB) T0') as (K1 & _). destruct (xdiv_lt x _ (- t) XP (opp_le0 _ P') T0') as (_ & K2).
    rewrite K1, K2, opp_flip_l, opp_flip_r. replace (- (x / - t)) with (x / t) by (field; lra). tauto.
Qed.
End Window.

Lemma prel_atom_l x a m sj : x <> 0 -> wf_seg sj -> one_sided sj -> isDirac sj = false ->
  prodrel x (DiracSeg a m) sj = true <-> a <> 0 /\ Rbar_lt (sa sj) (x / a) /\ Rbar_lt (x / a) (sb sj).
Proof.
  intros X W O D.
  assert (OA : one_sided (DiracSeg a m)) by (unfold one_sided; simpl; destruct (Rle_lt_dec 0 a); [left|right]; lra).
  rewrite (prodrel_takes x (DiracSeg a m) sj X I W OA O (or_intror D)). unfold takes. rewrite D. cbn [isDirac sa]. split.
  - intros (u & y & U & Y & E). injection U as ->. assert (u <> 0) by (intros ->; lra). split; auto.
    replace (x / u) with y by (rewrite E; field; auto). auto.
  - intros (A & H). exists a, (x / a). splits; auto; try tauto. field; auto.
Qed.
Lemma prel_atom_r x b k si : x <> 0 -> wf_seg si -> one_sided si -> isDirac si = false ->
  prodrel x si (DiracSeg b k) = true <-> b <> 0 /\ Rbar_lt (sa si) (x / b) /\ Rbar_lt (x / b) (sb si).
Proof.
  intros X W O D.
  assert (OA : one_sided (DiracSeg b k)) by (unfold one_sided; simpl; destruct (Rle_lt_dec 0 b); [left|right]; lra).
  rewrite (prodrel_takes x si (DiracSeg b k) X W I O OA (or_introl D)). unfold takes. rewrite D. cbn [isDirac sa]. split.
  - intros (y & u & Y & U & E). injection U as ->. assert (u <> 0) by (intros ->; lra). split; auto.
    replace (x / u) with y by (rewrite E; field; auto). auto.
  - intros (A & H). exists (x / b), b. splits; auto; try tauto. field; auto.
Qed.

Definition prod_pv (x : R) (si sj : segment) : R := match prod_pair x si sj with Ok v => v | Err _ => 0 end.

Lemma prod_value f g x : x <> 0 -> Forall wf_seg f -> Forall wf_seg g -> Forall one_sided f -> Forall one_sided g ->
  kernel_integrable (fun t => t) (fun t => x / t) (fun t => / Rabs t) f g ->
  exists val, sum_pairs (prod_pair x) (filter (fun p => prodrel x (fst p) (snd p)) (seg_pairs f g)) 0 = Ok val /\ prod_density f g x val.
Proof.
  intros X Wf Wg Of Og HI. rewrite Forall_forall in Wf, Wg, Of, Og.
  set (wa := fun a : R => if Req_EM_T a 0 then 0 else / Rabs a).
  destruct (pairs_value (fun t => t) (fun t => x / t) (fun t => / Rabs t) wa (fun a => x / a) wa (fun b => x / b) f g (prodrel x) (prod_pair x) (prod_pv x)) as (val & V1 & J & V2 & V3).
  - intros si sj Hi Hj R. unfold prod_pv. destruct (isDirac si) eqn:Di, (isDirac sj) eqn:Dj.
    + destruct si, sj; try discriminate. rewrite prodrel_both in R. discriminate.
    + unfold prod_pair, isSegment. rewrite Di, Dj. reflexivity.
    + unfold prod_pair, isSegment. rewrite Di, Dj. reflexivity.
    + destruct (prod_window si sj x) as (L & U & -> & _); auto.
  - intros si sj Hi Hj Di Dj. unfold prod_pv. destruct (prodrel x si sj) eqn:R.
    + destruct (prod_window si sj x) as (L & U & -> & IN); auto. apply window_int; auto.
      intros t T1 T2. unfold prod_funi. destruct (reqP t 0) as [->|T0]; [|unfold Rdiv; ring]. exfalso.
      destruct (proj1 (IN 0) (conj T1 T2)) as (A & B & _). destruct (Of si Hi) as [P|P]; [apply (Rbar_lt_not_le _ _ A)|apply (Rbar_lt_not_le _ _ B)]; auto.
    + apply has_int_null. intros t.
      destruct (Rbar_lt_dec (sa si) t) as [A|A]; [|rewrite (dens1_out si); [ring|tauto]].
      destruct (Rbar_lt_dec t (sb si)) as [B|B]; [|rewrite (dens1_out si); [ring|tauto]].
      rewrite (dens1_out sj); [ring|]. intros (C & D). assert (K : prodrel x si sj = true); [|congruence].
      apply prodrel_takes; auto. exists t, (x / t). unfold takes. rewrite Di, Dj. splits; auto.
      field. intros ->. destruct (Of si Hi) as [P|P]; [apply (Rbar_lt_not_le _ _ A)|apply (Rbar_lt_not_le _ _ B)]; auto.
  - intros a m sj Hi Hj Dj. unfold prod_pv, prod_pair, isSegment. rewrite Dj. cbn [isDirac negb andb]. unfold spos. cbn [sa real smass].
    replace (req x 0) with false by (symmetry; apply req_false; auto). unfold wa.
    destruct (prodrel x (DiracSeg a m) sj) eqn:R.
    + apply prel_atom_l in R; auto. destruct R as (A & R). destruct (Req_EM_T a 0); [contradiction|]. rewrite dens1_in by tauto. unfold Rdiv. ring.
    + destruct (Req_EM_T a 0); [ring|]. rewrite dens1_out; [ring|]. intros K.
      assert (R' : prodrel x (DiracSeg a m) sj = true); [apply prel_atom_l; auto|congruence].
  - intros b k si Hi Hj Di. unfold prod_pv, prod_pair, isSegment. rewrite Di. cbn [isDirac negb andb]. unfold spos. cbn [sa real smass].
    replace (req x 0) with false by (symmetry; apply req_false; auto). unfold wa.
    destruct (prodrel x si (DiracSeg b k)) eqn:R.
    + apply prel_atom_r in R; auto. destruct R as (A & R). destruct (Req_EM_T b 0); [contradiction|]. rewrite dens1_in by tauto. unfold Rdiv. ring.
    + destruct (Req_EM_T b 0); [ring|]. rewrite dens1_out; [ring|]. intros K.
      assert (R' : prodrel x si (DiracSeg b k) = true); [apply prel_atom_r; auto|congruence].
  - intros a m b k _ _. rewrite prodrel_both. auto.
  - exists val. split; auto. exists J. split; auto. rewrite V3.
    f_equal; [f_equal|]; unfold atom_sum; apply sumR_ext; intros s _; destruct s; auto; unfold wa; destruct (Req_EM_T a 0); ring.
Qed.
