(** Facts about the assembly of results from cells. *)
From Coq Require Import Reals Lra Lia List Bool Sorted Permutation.
From Coquelicot Require Import Coquelicot.
From Verif Require Import Base Bisect Seg Piecewise PiecewiseSpec PiecewiseFacts PiecewiseFacts2 PiecewiseFacts3 PiecewiseFacts4 Integral SegInt Indep IndepSpec AtomFacts3 IndepAsm.
Import List ListNotations.
Open Scope R_scope.

(** the point at which the pieces for a cell are chosen *)
Definition probe (a b : Rbar) : R :=
  match a, b with
  | Finite a, Finite b => (a + b) / 2
  | Finite a, _ => a + 1
  | _, Finite b => b - 1
  | _, _ => 0
  end.
Definition cell_piece (F : R -> R -> R) (ab : Rbar * Rbar) : segment :=
  match ab with
  | (Finite a, Finite b) => Seg a b (F (probe a b))
  | (Finite a, _) => PInfSeg a (F (probe a p_infty))
  | (_, Finite b) => MInfSeg b (F (probe m_infty b))
  | _ => Seg 0 0 (fun _ => 0)
  end.
Definition cells (F : R -> R -> R) (ub : list Rbar) : list segment := map (cell_piece F) (pairs_up ub).

(** break point lists: strictly increasing with at least one finite element *)
Definition good_ub (ub : list Rbar) : Prop := StronglySorted Rbar_lt ub /\ exists r : R, In (Finite r) ub.

Lemma good_ub_form ub : good_ub ub -> exists l xs r, ub = l ++ map Finite xs ++ r /\
  (l = [] \/ l = [m_infty]) /\ (r = [] \/ r = [p_infty]) /\ xs <> [] /\ StronglySorted Rlt xs.
Proof.
  intros (S & r0 & H).
  assert (A : forall l, StronglySorted Rbar_lt l -> (forall y, In y l -> y <> m_infty) -> 
     exists xs r, l = map Finite xs ++ r /\ (r = [] \/ r = [p_infty]) /\ StronglySorted Rlt xs).
  { induction l as [|a l IH]; intros Sl N.
    - exists [], []. splits; auto. constructor.
    - apply StronglySorted_inv in Sl. destruct Sl as (Sl & Fl). destruct a as [a| |].
      + destruct IH as (xs & r & E & R & Sx); auto; [intros; apply N; simpl; auto|].
        exists (a :: xs), r. rewrite E. splits; auto. constructor; auto. apply Forall_forall. intros y Hy.
        rewrite Forall_forall in Fl. apply (Fl (Finite y)). rewrite E. apply in_app_iff. left. apply in_map; auto.
      + destruct l as [|b l]; [|inversion Fl; subst; contradiction]. exists [], [p_infty]. splits; auto. constructor.
      + exfalso. apply (N m_infty); simpl; auto. }
  destruct ub as [|a l]; [destruct H|].
  assert (NM : forall y, In y l -> y <> m_infty).
  { apply StronglySorted_inv in S. destruct S as (_ & F). rewrite Forall_forall in F. intros y Hy ->. apply F in Hy. destruct a; contradiction. }
  destruct a as [a| |].
  - destruct (A (Finite a :: l)) as (xs & r & E & R & Sx); auto.
    { intros y [<-|Hy]; [discriminate|auto]. }
    exists [], xs, r. splits; auto. intros ->. destruct R as [-> | ->]; simpl in E; discriminate.
  - apply StronglySorted_inv in S. destruct S as (_ & F). destruct H as [H|H]; [discriminate|]. rewrite Forall_forall in F. apply F in H. contradiction.
  - apply StronglySorted_inv in S. destruct S as (S & F). destruct (A l S NM) as (xs & r & E & R & Sx).
    exists [m_infty], xs, r. rewrite E. splits; auto. intros ->. destruct H as [H|H]; [discriminate|].
    rewrite E in H. destruct R as [-> | ->]; simpl in H; destruct H as [H|[]] || destruct H; discriminate.
Qed.

Lemma pairs_up_snoc l a b : pairs_up (l ++ [a; b]) = pairs_up (l ++ [a]) ++ [(a, b)].
Proof.
  induction l as [|p l IH]; auto. destruct l as [|q l]; auto.
  change (pairs_up ((p :: q :: l) ++ [a; b])) with ((p, q) :: pairs_up ((q :: l) ++ [a; b])). rewrite IH. reflexivity.
Qed.
Lemma asm_mid_fin F xs : asm_mid F (map Finite xs) = cells F (map Finite xs).
Proof.
  unfold asm_mid, cells. induction xs as [|a xs IH]; auto. destruct xs as [|b xs]; auto.
  change (pairs_up (map Finite (a :: b :: xs))) with ((Finite a, Finite b) :: pairs_up (map Finite (b :: xs))).
  cbn [flat_map]. cbn [map] in *. cbn [app cell_piece]. rewrite IH. reflexivity.
Qed.
Lemma asm_pinf_fin F xs : asm_pinf F (map Finite xs) = ([], map Finite xs).
Proof.
  unfold asm_pinf. rewrite <- map_rev. destruct (rev xs) as [|a [|b t]]; auto.
Qed.
Lemma asm_pinf_inf F xs b : asm_pinf F (map Finite xs ++ [Finite b; p_infty]) = ([PInfSeg b (F (b + 1))], map Finite xs ++ [Finite b]).
Proof.
  unfold asm_pinf. rewrite rev_app_distr. simpl. rewrite rev_involutive. reflexivity.
Qed.

Lemma asm_pieces_perm F ub : good_ub ub -> Permutation (asm_pieces F ub) (cells F ub).
Proof.
  intros G. destruct (good_ub_form ub G) as (l & xs & r & -> & Hl & Hr & NE & S). unfold asm_pieces.
  assert (T : forall t, t = map Finite xs ++ r ->
    Permutation (let (s2, ub2) := asm_pinf F t in s2 ++ asm_mid F ub2) (cells F t)).
  { intros t ->. destruct Hr as [-> | ->].
    - rewrite app_nil_r, asm_pinf_fin, asm_mid_fin. reflexivity.
    - destruct (exists_last NE) as (ys & b & ->). rewrite map_app, <- app_assoc. cbn [map app].
      rewrite asm_pinf_inf. unfold cells. rewrite pairs_up_snoc, map_app. cbn [map cell_piece].
      replace (map Finite ys ++ [Finite b]) with (map Finite (ys ++ [b])) by (rewrite map_app; auto).
      rewrite asm_mid_fin. rewrite Permutation_app_comm. reflexivity. }
  destruct Hl as [-> | ->].
  - cbn [app]. assert (E : asm_minf F (map Finite xs ++ r) = ([], map Finite xs ++ r)).
    { unfold asm_minf. destruct xs as [|a [|b xs]]; [congruence| |reflexivity]. simpl.
      destruct Hr as [-> | ->]; reflexivity. }
    rewrite E. specialize (T _ eq_refl). destruct (asm_pinf F (map Finite xs ++ r)). exact T.
  - assert (E : exists b, asm_minf F ([m_infty] ++ map Finite xs ++ r) = ([MInfSeg b (F (b - 1))], map Finite xs ++ r) /\
        exists t, map Finite xs ++ r = Finite b :: t).
    { destruct xs as [|a xs]; [congruence|]. exists a. simpl. split; eauto. }
    destruct E as (b & -> & t & Et). specialize (T _ eq_refl). destruct (asm_pinf F (map Finite xs ++ r)) as (s2 & ub2).
    cbn [app]. rewrite T. unfold cells. rewrite Et. reflexivity.
Qed.

Lemma cell_lt ub a b : StronglySorted Rbar_lt ub -> In (a, b) (pairs_up ub) -> Rbar_lt a b.
Proof. intros S H. apply pairs_up_In in H; tauto. Qed.
Lemma cell_ends F ub ab : good_ub ub -> In ab (pairs_up ub) ->
  sa (cell_piece F ab) = fst ab /\ sb (cell_piece F ab) = snd ab /\ isDirac (cell_piece F ab) = false /\ wf_seg (cell_piece F ab) /\
  (exists p, probe (fst ab) (snd ab) = p /\ Rbar_lt (fst ab) p /\ Rbar_lt p (snd ab)) /\ sf (cell_piece F ab) = F (probe (fst ab) (snd ab)).
Proof.
  intros G H. destruct ab as (a, b). pose proof (cell_lt ub a b (proj1 G) H) as L.
  destruct (good_ub_form ub G) as (l & xs & r & E & Hl & Hr & NE & S).
  assert (ND : ~ (a = m_infty /\ b = p_infty)).
  { intros (-> & ->). apply pairs_up_In in H; [|apply G]. destruct H as (_ & _ & _ & H). destruct xs as [|y xs]; [congruence|].
    apply (H y); [|simpl; auto]. rewrite E. apply in_app_iff. right. simpl. auto. }
  destruct a as [a| |], b as [b| |]; simpl in L; try tauto; cbn [cell_piece fst snd sa sb isDirac probe]; splits; auto;
    try (eexists; split; [reflexivity|]; simpl; lra); simpl; auto; try lra.
Qed.
Lemma cells_ok F ub : good_ub ub -> ordered (cells F ub) /\ Forall wf_seg (cells F ub) /\ getDiracs (cells F ub) = [] /\ getSegments (cells F ub) = cells F ub.
Proof.
  intros G. unfold cells.
  assert (K : forall ab, In ab (pairs_up ub) -> _) by (intros ab Hab; exact (cell_ends F ub ab G Hab)).
  pose proof (pairs_up_sorted ub (proj1 G)) as S.
  assert (LT : forall ab, In ab (pairs_up ub) -> Rbar_lt (fst ab) (snd ab)).
  { intros (a, b) H. eapply cell_lt; [apply G|eauto]. }
  clear G. induction (pairs_up ub) as [|ab l IH]; [cbn; splits; constructor|].
  apply StronglySorted_inv in S. destruct S as (S & FS).
  destruct IH as (I1 & I2 & I3 & I4); auto; [intros; apply K; simpl; auto|intros; apply LT; simpl; auto|].
  destruct (K ab) as (K1 & K2 & K3 & K4 & _); [simpl; auto|].
  cbn [map]. unfold getDiracs, getSegments, isSegment in *. cbn [filter]. rewrite K3. cbn [negb]. rewrite I3, I4. splits; auto.
  constructor; auto. apply Forall_forall. intros s Hs. apply in_map_iff in Hs. destruct Hs as (cd & <- & Hcd).
  destruct (K cd) as (C1 & C2 & _); [simpl; auto|]. rewrite Forall_forall in FS. specialize (FS cd Hcd).
  unfold before. rewrite K1, K2, C1, C2. split; auto. intros E.
  assert (A := LT ab (or_introl eq_refl)). assert (B := LT cd (or_intror Hcd)).
  apply (Rbar_lt_not_le _ _ B). rewrite <- E. apply Rbar_lt_le. eapply Rbar_lt_le_trans; eauto.
Qed.

Lemma assemble_ok eps F ub : good_ub ub ->
  exists q, assemble eps F ub = Ok q /\ segs q = cells F ub.
Proof.
  intros G. destruct (cells_ok F ub G) as (O & W & D & _). pose proof (asm_pieces_perm F ub G) as P.
  destruct (addAll_compatible eps (asm_pieces F ub) empty_pwf) as (q & Q1 & Q2 & Q3 & Q4); simpl; auto.
  - constructor.
  - eapply Permutation_Forall; [symmetry; exact P|auto].
  - unfold all_compatible. eapply FOP_perm; [|symmetry; exact P|].
    + intros s t (A & B). split; [tauto|]. destruct s, t; auto. rewrite Rabs_minus_sym; auto.
    + apply ordered_compatible; auto. apply dirac_sep_pos. 
      assert (E : dirac_pos (cells F ub) = []); [|rewrite E; constructor].
      clear - D. unfold getDiracs in D. induction (cells F ub) as [|s l IH]; auto. simpl in D. destruct s; try discriminate; simpl; auto.
  - intros s t _ [].
  - exists q. split; auto. symmetry. apply ordered_unique; auto. rewrite <- P. simpl in Q2. auto.
Qed.

Lemma in_cell ub (x : R) : good_ub ub -> ~ In (Finite x) ub ->
  (exists a b, In (a, b) (pairs_up ub) /\ Rbar_lt a x /\ Rbar_lt x b) \/
  (forall y, In y ub -> Rbar_lt x y) \/ (forall y, In y ub -> Rbar_lt y x).
Proof.
  intros (S & _) N. induction S as [|a l S IH F]; [right; left; intros y []|].
  destruct (Rbar_lt_dec x a) as [L|L].
  - right. left. intros y [<-|Hy]; auto. rewrite Forall_forall in F. eapply Rbar_lt_trans; eauto.
  - assert (L' : Rbar_lt a x). { apply Rbar_not_lt in L. apply Rbar_le_lt_or_eq_dec in L. destruct L as [L|E]; auto.
      exfalso. apply N. simpl. auto. }
    destruct IH as [(p & q & H & A & B)|[H|H]].
    + intros K. apply N. simpl; auto.
    + left. exists p, q. splits; auto. destruct l; [destruct H|]. simpl. auto.
    + destruct l as [|b l]; [right; right; intros y [<-|[]]; auto|]. left. exists a, b. splits; auto; [simpl; auto|apply H; simpl; auto].
    + right. right. intros y [<-|Hy]; auto.
Qed.

(** value of the assembled function away from the break points *)
Lemma asm_value F ub l (x : R) : good_ub ub -> ordered l -> Forall wf_seg l -> getSegments l = cells F ub ->
  ~ In (Finite x) ub -> ~ In x (dirac_pos l) ->
  (exists a b, In (a, b) (pairs_up ub) /\ Rbar_lt a x /\ Rbar_lt x b /\ Rbar_lt a (probe a b) /\ Rbar_lt (probe a b) b /\
     call_vec l x = F (probe a b) x) \/
  (((forall y, In y ub -> Rbar_lt x y) \/ (forall y, In y ub -> Rbar_lt y x)) /\ call_vec l x = 0).
Proof.
  intros G O W E N ND.
  assert (CV : forall s, In s l -> isDirac s = false -> In s (cells F ub)).
  { intros s Hs D. rewrite <- E. apply filter_In. split; auto. unfold isSegment. rewrite D. auto. }
  assert (VC : forall s, In s (cells F ub) -> In s l).
  { intros s Hs. rewrite <- E in Hs. apply filter_In in Hs. tauto. }
  assert (PE : forall a b, In (a, b) (pairs_up ub) -> In a ub /\ In b ub).
  { intros a b H. apply pairs_up_In in H; [tauto|apply G]. }
  assert (NB : ~ In (Finite x) (getBreaks l)).
  { intros H. apply getBreaks_In in H. destruct H as (s & Hs & H). destruct (isDirac s) eqn:D.
    - destruct s as [| | | |a m|]; try discriminate. simpl in H. apply ND. apply dirac_pos_In. exists m.
      destruct H as [H|H]; injection H as <-; auto.
    - apply CV in Hs; auto. unfold cells in Hs. apply in_map_iff in Hs. destruct Hs as ((a, b) & <- & Hab).
      destruct (cell_ends F ub (a, b) G Hab) as (K1 & K2 & _). rewrite K1, K2 in H. destruct (PE a b Hab). simpl in H.
      apply N. destruct H as [-> | ->]; auto. }
  destruct (call_vec_open l x O W NB) as [(s & Hs & D & C & ->)|(H & ->)].
  - left. apply CV in Hs; auto. unfold cells in Hs. apply in_map_iff in Hs. destruct Hs as ((a, b) & <- & Hab).
    destruct (cell_ends F ub (a, b) G Hab) as (K1 & K2 & K3 & K4 & (p & K6 & K7 & K8) & K9). cbn [fst snd] in *.
    exists a, b. rewrite K9. unfold covers in C. rewrite K1, K2 in C. destruct (PE a b Hab). rewrite K6. splits; auto; try tauto.
    destruct C as (C1 & C2). destruct (Rbar_le_lt_or_eq_dec _ _ C1) as [L|Eq]; auto. exfalso. apply N. rewrite <- Eq. auto.
  - right. split; auto. destruct (in_cell ub x G N) as [(a & b & Hab & A & B)|?]; auto.
    exfalso. assert (Hc : In (cell_piece F (a, b)) (cells F ub)) by (apply in_map; auto).
    destruct (cell_ends F ub (a, b) G Hab) as (K1 & K2 & K3 & _).
    apply (H _ (VC _ Hc) K3). unfold covers. rewrite K1, K2. cbn [fst snd]. split; auto. apply Rbar_lt_le; auto.
Qed.
Lemma cells_clear F ub l (x : R) : good_ub ub -> getSegments l = cells F ub -> In (Finite x) ub ->
  forall s, In s l -> isDirac s = false -> ~ inside s x.
Proof.
  intros G E H s Hs D (A & B). assert (Hc : In s (cells F ub)). { rewrite <- E. apply filter_In. split; auto. unfold isSegment. rewrite D. auto. }
  unfold cells in Hc. apply in_map_iff in Hc. destruct Hc as ((a, b) & <- & Hab).
  destruct (cell_ends F ub (a, b) G Hab) as (K1 & K2 & _). rewrite K1 in A. rewrite K2 in B.
  apply pairs_up_In in Hab; [|apply G]. destruct Hab as (_ & _ & _ & K). apply (K (Finite x)); auto.
Qed.

(** assembled cells plus atoms at break points *)
Lemma cells_good eps F ub : good_ub ub -> good eps (cells F ub) /\ dirac_pos (cells F ub) = [] /\ (forall z, pm (cells F ub) z = 0).
Proof.
  intros G. destruct (cells_ok F ub G) as (O & W & D & _).
  assert (E : dirac_pos (cells F ub) = []).
  { clear - D. unfold getDiracs in D. induction (cells F ub) as [|s l IH]; auto. simpl in D. destruct s; try discriminate; simpl; auto. }
  splits; auto.
  - unfold good. splits; auto. apply dirac_sep_pos. rewrite E. constructor.
  - intros z. apply pm_notin. rewrite E. auto.
Qed.
Lemma asm_atoms eps F ub d : 0 <= eps -> good_ub ub -> discrete d ->
  (forall a, In a (dirac_pos d) -> In (Finite a) ub) ->
  (forall a b, In a (dirac_pos d) -> In b (dirac_pos d) -> a = b \/ eps < Rabs (a - b)) ->
  exists q, rbind (assemble eps F ub) (fun fg => addAll eps fg d) = Ok q /\ good eps (segs q) /\
    getSegments (segs q) = cells F ub /\ (forall z, pm (segs q) z = pm d z) /\
    (forall b, In b (dirac_pos (segs q)) <-> In b (dirac_pos d)).
Proof.
  intros He G D U S. destruct (assemble_ok eps F ub G) as (fg & -> & E). cbn [rbind].
  destruct (cells_good eps F ub G) as (G1 & G2 & G3). destruct (cells_ok F ub G) as (_ & _ & _ & GS).
  destruct (add_atoms_good eps d fg) as (q & Q1 & Q2 & Q3 & Q4 & Q5); auto.
  - rewrite E; auto.
  - intros a Ha s Hs Ds. apply (cells_clear F ub (segs fg) a); auto. rewrite E; auto.
  - intros a b Ha [Hb|Hb]; auto. rewrite E, G2 in Hb. destruct Hb.
  - exists q. splits; auto.
    + rewrite Q3, E. auto.
    + intros z. rewrite Q4, E, G3. ring.
    + intros b. rewrite Q5, E, G2. simpl. tauto.
Qed.
