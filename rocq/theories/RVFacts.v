(** Proofs: heaps of random variables, ancestors, dependence check. *)
From Coq Require Import Reals Lra Lia List Bool Arith.
From Coquelicot Require Import Coquelicot.
From Verif Require Import Base ND Models ModelsFacts GridFacts RV RVSpec.
Import List ListNotations.
Open Scope R_scope.

Lemma get_ok h i c : get h i = Ok c <-> nth_error h i = Some c.
Proof. unfold get. destruct (nth_error h i); split; intros H; try discriminate; [injection H as <-|injection H as <-]; auto. Qed.
Lemma get_some (h : heap) i : (i < length h)%nat -> exists c, nth_error h i = Some c.
Proof. intros L. destruct (nth_error h i) eqn:E; eauto. apply nth_error_None in E. lia. Qed.
Lemma nth_lt {A} (h : list A) i c : nth_error h i = Some c -> (i < length h)%nat.
Proof. intros H. apply nth_error_Some. congruence. Qed.
Lemma ext_nth h h' i c : extends h h' -> nth_error h i = Some c -> nth_error h' i = Some c.
Proof. intros (l & ->) H. rewrite nth_error_app1; auto. eapply nth_lt; eauto. Qed.
Lemma ext_refl h : extends h h.
Proof. exists []. rewrite app_nil_r. auto. Qed.
Lemma ext_trans h1 h2 h3 : extends h1 h2 -> extends h2 h3 -> extends h1 h3.
Proof. intros (l & ->) (m & ->). exists (l ++ m). rewrite app_assoc. auto. Qed.
Lemma ext_len h h' : extends h h' -> (length h <= length h')%nat.
Proof. intros (l & ->). rewrite app_length. lia. Qed.

(** adding a cell *)
Lemma add_wf h c : wf_heap h -> (forall p, In p (args (c_kind c)) -> (p < length h)%nat) -> (forall p, In p (c_par c) -> (p < length h)%nat) -> wf_heap (h ++ [c]).
Proof.
  intros W A B i d E. destruct (Nat.lt_ge_cases i (length h)) as [L|L].
  - rewrite nth_error_app1 in E by auto. eapply W; eauto.
  - rewrite nth_error_app2 in E by auto. destruct (i - length h)%nat as [|n] eqn:N; cbn in E; [|destruct n; discriminate]. injection E as <-. split; intros p P; [apply A in P|apply B in P]; lia.
Qed.
Lemma add_nth (h : heap) c : nth_error (h ++ [c]) (length h) = Some c.
Proof. rewrite nth_error_app2 by lia. rewrite Nat.sub_diag. auto. Qed.
Lemma add_ext h c : extends h (h ++ [c]).
Proof. exists [c]. auto. Qed.

(** constructors *)
Lemma new_shift_inv h d s m h' i : new_shift h d s m = Ok (h', i) ->
  exists c, nth_error h d = Some c /\ m <> 0 /\ i = length h /\
    h' = h ++ [Cell (KShift s m d) [d] true (c_distr c) (fst (shift_range c s m)) (snd (shift_range c s m)) None (EAdd (EMul (EVar (c_name c)) (ENum m)) (ENum s)) (length h)].
Proof.
  unfold new_shift. destruct (get h d) as [c|] eqn:G; [|discriminate]. cbn [rbind]. apply get_ok in G. destruct (req m 0) eqn:E; [discriminate|]. intros [= <- <-]. b2p. exists c. auto.
Qed.
Lemma new_un_inv h f d h' i : new_un h f d = Ok (h', i) ->
  exists c, nth_error h d = Some c /\ i = length h /\ h' = h ++ [Cell (KUn f d) [d] true (c_distr c) (Some (Finite 0)) (Some (Finite 1)) None (un_sym f (EVar (c_name c))) (length h)].
Proof. unfold new_un. destruct (get h d) as [c|] eqn:G; [|discriminate]. cbn [rbind]. apply get_ok in G. intros [= <- <-]. exists c. auto. Qed.
Lemma new_bin_inv h o d1 d2 b h' i : new_bin h o d1 d2 b = Ok (h', i) ->
  exists c1 c2, nth_error h d1 = Some c1 /\ nth_error h d2 = Some c2 /\ i = length h /\
    h' = h ++ [Cell (KBin o d1 d2) [d1; d2] true b (fst (bin_range o (range_of c1) (range_of c2))) (snd (bin_range o (range_of c1) (range_of c2))) None (bin_sym o (EVar (c_name c1)) (EVar (c_name c2))) (length h)].
Proof.
  unfold new_bin. destruct (get h d1) as [c1|] eqn:G1; [|discriminate]. destruct (get h d2) as [c2|] eqn:G2; [|discriminate]. cbn [rbind]. apply get_ok in G1, G2. intros [= <- <-]. exists c1, c2. auto.
Qed.
Lemma new_shift_wf h d s m h' i : wf_heap h -> new_shift h d s m = Ok (h', i) -> wf_heap h' /\ extends h h' /\ i = length h /\ (i < length h')%nat.
Proof. intros W H. apply new_shift_inv in H as (c & G & N & -> & ->). apply nth_lt in G. splits; auto using add_ext; [|rewrite app_length; cbn; lia]. apply add_wf; auto; intros p [<-|[]]; auto. Qed.
Lemma new_un_wf h f d h' i : wf_heap h -> new_un h f d = Ok (h', i) -> wf_heap h' /\ extends h h' /\ i = length h /\ (i < length h')%nat.
Proof. intros W H. apply new_un_inv in H as (c & G & -> & ->). apply nth_lt in G. splits; auto using add_ext; [|rewrite app_length; cbn; lia]. apply add_wf; auto; intros p [<-|[]]; auto. Qed.
Lemma new_bin_wf h o d1 d2 b h' i : wf_heap h -> new_bin h o d1 d2 b = Ok (h', i) -> wf_heap h' /\ extends h h' /\ i = length h /\ (i < length h')%nat.
Proof. intros W H. apply new_bin_inv in H as (c1 & c2 & G1 & G2 & -> & ->). apply nth_lt in G1, G2. splits; auto using add_ext; [|rewrite app_length; cbn; lia]. apply add_wf; auto; intros p [<-|[<-|[]]]; auto. Qed.
Lemma new_const_wf h r h' i : wf_heap h -> new_const h r = (h', i) -> wf_heap h' /\ extends h h' /\ i = length h /\ (i < length h')%nat.
Proof. intros W H. unfold new_const, add_cell in H. injection H as <- <-. splits; auto using add_ext; [|rewrite app_length; cbn; lia]. apply add_wf; auto; intros p []. Qed.

(** values *)
Lemma value_ext h h' w i x : extends h h' -> value h w i x -> value h' w i x.
Proof.
  intros X V. induction V; [eapply val_base|eapply val_const|eapply val_shift|eapply val_un|eapply val_bin]; eauto using ext_nth.
Qed.
Lemma un_det f x y z : un_is f x y -> un_is f x z -> y = z.
Proof. intros A B. destruct A; inversion B; auto. Qed.
Lemma bin_det o x y z t : bin_is o x y z -> bin_is o x y t -> z = t.
Proof. intros A B. destruct A; inversion B; auto. Qed.
Lemma value_det h w i x : value h w i x -> forall y, value h w i y -> x = y.
Proof.
  intros V. induction V as [i c E K|i c r E K|i c s m d x E K V IH|i c f d x y E K V IH U|i c o d1 d2 x y z E K V1 IH1 V2 IH2 B]; intros t T;
  destruct T as [i c' E' K'|i c' r' E' K'|i c' s' m' d' x' E' K' V'|i c' f' d' x' y' E' K' V' U'|i c' o' d1' d2' x' y' z' E' K' V1' V2' B']; rewrite E in E'; injection E' as <-; rewrite K in K'; try discriminate K'; try (injection K'; intros; subst); auto.
  - f_equal. f_equal. auto.
  - assert (x = x') by auto. subst. eapply un_det; eauto.
  - assert (x = x') by auto. assert (y = y') by auto. subst. eapply bin_det; eauto.
Qed.
Lemma value_in h w i x : value h w i x -> (i < length h)%nat.
Proof. intros V. inversion V; subst; eapply nth_lt; eauto. Qed.
Lemma un_val_is f x y : un_val f x = Ok y <-> un_is f x y.
Proof.
  split.
  - destruct f; cbn; try (intros [= <-]; constructor).
    + destruct (rlt 0 x) eqn:E; [|discriminate]. intros [= <-]. b2p. constructor; auto.
    + destruct (req x 0) eqn:E; [discriminate|]. intros [= <-]. b2p. replace (1 / x) with (/ x) by (field; auto). constructor; auto.
    + intros [= <-]. replace (x * x) with (x ^ 2) by ring. constructor.
  - intros H. destruct H; cbn; auto.
    + rewrite (proj2 (rlt_true _ _)); auto.
    + rewrite (proj2 (req_false _ _)) by auto. f_equal. field. auto.
    + f_equal. ring.
Qed.
Lemma bin_val_is o x y z : bin_val o x y = Ok z <-> bin_is o x y z.
Proof.
  split.
  - destruct o; cbn; try (intros [= <-]; constructor). destruct (req y 0) eqn:E; [discriminate|]. intros [= <-]. b2p. constructor; auto.
  - intros H. destruct H; cbn; auto. rewrite (proj2 (req_false _ _)) by auto. auto.
Qed.

(** reachability *)
Lemma reach_le h i j : wf_heap h -> reach h i j -> (j <= i)%nat.
Proof. intros W H. induction H as [|i c p j E P H IH]; auto. apply (W i c) in P; auto. lia. Qed.
Lemma reach_in h i j : wf_heap h -> reach h i j -> (i < length h)%nat -> (j < length h)%nat.
Proof. intros W H L. apply reach_le in H; auto. lia. Qed.
Lemma reach_trans h i j k : reach h i j -> reach h j k -> reach h i k.
Proof. intros A B. induction A; auto. eapply reach_par; eauto. Qed.
Lemma reach_inv h i j c : nth_error h i = Some c -> reach h i j <-> i = j \/ exists p, In p (c_par c) /\ reach h p j.
Proof.
  intros E. split.
  - intros H. destruct H as [|i c' p j E' P H]; auto. right. exists p. split; auto. congruence.
  - intros [->|(p & P & H)]; [constructor|]. eapply reach_par; eauto.
Qed.
Lemma add1_In i s j : In j (add1 i s) <-> j = i \/ In j s.
Proof. unfold add1. destruct (mem i s) eqn:E; [apply mem_iff in E|]. - split; auto. intros [->|]; auto. - rewrite in_app_iff. cbn. intuition. Qed.
Lemma add1_nodup i s : NoDup s -> NoDup (add1 i s).
Proof. intros N. unfold add1. destruct (mem i s) eqn:E; auto. apply mem_false in E. apply NoDup_app2; auto; [repeat constructor; auto|]. intros x X [<-|[]]. auto. Qed.

Definition closed (h : heap) (s : list nat) : Prop := forall a j, In a s -> reach h a j -> In j s.
Lemma fold_err {A B} (f : A -> B -> res A) (l : list B) e : fold_left (fun acc p => rbind acc (fun s => f s p)) l (Err e) = Err e.
Proof. induction l; cbn; auto. Qed.
Lemma ancs_ok h : wf_heap h -> forall n i anc, (i < n)%nat -> (i < length h)%nat -> closed h anc -> NoDup anc ->
  exists s, ancs n h i anc = Ok s /\ NoDup s /\ forall j, In j s <-> In j anc \/ reach h i j.
Proof.
  intros W. induction n as [|n IH]; intros i anc L1 L2 C N; [lia|]. cbn [ancs]. destruct (get_some h i L2) as (c & E). rewrite (proj2 (get_ok h i c) E). cbn [rbind].
  assert (PL : forall p, In p (c_par c) -> (p < i)%nat) by (apply (W i c E)).
  assert (F : forall ps s0, (forall p, In p ps -> (p < i)%nat) -> closed h s0 -> NoDup s0 ->
    exists s, fold_left (fun acc p => rbind acc (fun s => if mem p s then Ok s else ancs n h p s)) ps (Ok s0) = Ok s /\ NoDup s /\ forall j, In j s <-> In j s0 \/ exists p, In p ps /\ reach h p j).
  { induction ps as [|p ps IHp]; intros s0 PP C0 N0; cbn [fold_left rbind].
    - exists s0. splits; auto. intros j. split; auto. intros [H|(p & [] & _)]; auto.
    - assert (Pi : (p < i)%nat) by (apply PP; cbn; auto). destruct (mem p s0) eqn:M.
      + apply mem_iff in M. destruct (IHp s0) as (s & -> & Ns & Hs); auto; [intros q Q; apply PP; cbn; auto|]. exists s. splits; auto. intros j. rewrite Hs. split.
        * intros [H|(q & Q & R)]; auto. right. exists q. cbn. auto.
        * intros [H|(q & [<-|Q] & R)]; auto; [left; eapply C0; eauto|right; eauto].
      + destruct (IH p s0) as (s1 & E1 & N1 & H1); auto; [lia|lia|]. rewrite E1.
        assert (C1 : closed h s1). { intros a j A R. apply H1 in A as [A|A]; apply H1; [left; eapply C0; eauto|right; eapply reach_trans; eauto]. }
        destruct (IHp s1) as (s & -> & Ns & Hs); auto; [intros q Q; apply PP; cbn; auto|]. exists s. splits; auto. intros j. rewrite Hs, H1. split.
        * intros [[H|H]|(q & Q & R)]; auto; right; [exists p|exists q]; cbn; auto.
        * intros [H|(q & [<-|Q] & R)]; eauto. }
  destruct (F (c_par c) anc PL C N) as (s & -> & Ns & Hs). cbn [rbind]. exists (add1 i s). splits; auto using add1_nodup.
  intros j. rewrite add1_In, Hs, (reach_inv h i j c E). split; intuition; subst; auto.
Qed.
Lemma anc_ok h i : wf_heap h -> (i < length h)%nat -> exists s, getAncestorIDs h i = Ok s /\ NoDup s /\ forall j, In j s <-> reach h i j.
Proof.
  intros W L. unfold getAncestorIDs. destruct (ancs_ok h W (S (length h)) i []) as (s & E & N & H); auto; [intros a j []|constructor|]. exists s. splits; auto. intros j. rewrite H. cbn. tauto.
Qed.

(** the dependence check: [anc] holds the ancestors of the parents seen so far *)
Definition share (h : heap) (p q : nat) : Prop := exists j, reach h p j /\ reach h q j.
Lemma warns_ok h : wf_heap h -> forall ps anc, (forall p, In p ps -> (p < length h)%nat) ->
  exists b, warns h anc ps = Ok b /\ (b = true <-> (exists p j, In p ps /\ In j anc /\ reach h p j) \/ exists l1 p l2 q l3, ps = l1 ++ p :: l2 ++ q :: l3 /\ share h p q).
Proof.
  intros W. induction ps as [|p ps IH]; intros anc L; cbn [warns].
  - exists false. split; auto. split; [discriminate|]. intros [(p & j & [] & _)|(l1 & p & l2 & q & l3 & E & _)]. destruct l1; discriminate.
  - destruct (anc_ok h p W) as (s & -> & N & H); [apply L; cbn; auto|]. cbn [rbind]. destruct (existsb (fun a => mem a anc) s) eqn:E.
    + exists true. split; auto. split; auto. intros _. left. apply existsb_exists in E as (j & J & M). apply mem_iff in M. exists p, j. cbn. splits; auto. apply H; auto.
    + assert (E' : forall j, In j s -> ~ In j anc). { intros j J A. rewrite (proj2 (existsb_exists _ _)) in E; [discriminate|]. exists j. split; auto. apply mem_iff. auto. }
      destruct (IH (anc ++ s)) as (b & -> & B); [intros q Q; apply L; cbn; auto|]. exists b. split; auto. rewrite B. clear IH B. split.
      * intros [(q & j & Q & J & R)|(l1 & a & l2 & q & l3 & -> & S)].
        -- apply in_app_iff in J as [J|J]; [left; exists q, j; cbn; auto|]. right. apply in_split in Q as (l2 & l3 & ->). exists [], p, l2, q, l3. split; auto. exists j. split; auto. apply H; auto.
        -- right. exists (p :: l1), a, l2, q, l3. auto.
      * intros [(q & j & [<-|Q] & J & R)|(l1 & a & l2 & q & l3 & EQ & S)].
        -- exfalso. apply (E' j); auto. apply H; auto.
        -- left. exists q, j. splits; auto. apply in_app_iff; auto.
        -- destruct l1 as [|x l1]; cbn in EQ; injection EQ as <- ->.
           ++ left. destruct S as (j & J1 & J2). exists q, j. splits; auto; apply in_app_iff; [right; cbn; auto|right; apply H; auto].
           ++ right. exists l1, a, l2, q, l3. auto.
Qed.

(** free and dependent ancestors *)
Lemma par_free_ok h : wf_heap h -> forall n i, (i < n)%nat -> (i < length h)%nat ->
  exists s, par_free n h i = Ok s /\ forall j, In j s <-> reach h i j /\ exists c, nth_error h j = Some c /\ c_par c = [].
Proof.
  intros W. induction n as [|n IH]; intros i L1 L2; [lia|]. cbn [par_free]. destruct (get_some h i L2) as (c & E). rewrite (proj2 (get_ok h i c) E). cbn [rbind].
  assert (PL : forall p, In p (c_par c) -> (p < i)%nat) by (apply (W i c E)).
  assert (F : forall ps s0, (forall p, In p ps -> (p < i)%nat) ->
    exists s, fold_left (fun acc p => rbind acc (fun s => rmap (fun t => s ++ t) (par_free n h p))) ps (Ok s0) = Ok s /\ forall j, In j s <-> In j s0 \/ exists p, In p ps /\ reach h p j /\ exists c, nth_error h j = Some c /\ c_par c = []).
  { induction ps as [|p ps IHp]; intros s0 PP; cbn [fold_left rbind].
    - exists s0. splits; auto. intros j. split; auto. intros [H|(p & [] & _)]; auto.
    - assert (Pi : (p < i)%nat) by (apply PP; cbn; auto). destruct (IH p) as (t & -> & Ht); [lia|lia|]. cbn [rmap].
      destruct (IHp (s0 ++ t)) as (s & -> & Hs); [intros q Q; apply PP; cbn; auto|]. exists s. split; auto. intros j. rewrite Hs, in_app_iff, Ht. split.
      + intros [[H|H]|(q & Q & H)]; auto; right; [exists p|exists q]; cbn; tauto.
      + intros [H|(q & [<-|Q] & H)]; auto. right. eauto. }
  destruct (F (c_par c) (match c_par c with [] => [i] | _ => [] end) PL) as (s & -> & Hs). exists s. split; auto. intros j. rewrite Hs, (reach_inv h i j c E).
  assert (SE : In j (match c_par c with [] => [i] | _ => [] end) <-> i = j /\ c_par c = []) by (destruct (c_par c); cbn; intuition congruence). rewrite SE. split.
  - intros [(<- & P)|(q & Q & R & G)]; split; auto; [exists c; auto|right; eauto].
  - intros ([<-|(q & Q & R)] & G); [|right; exists q; auto]. destruct G as (c' & E' & P). left. split; auto. congruence.
Qed.

Lemma par_dep_ok h : wf_heap h -> forall n i, (i < n)%nat -> (i < length h)%nat ->
  exists s, par_dep n h i = Ok s /\ forall j, In j s <-> reach h i j /\ exists c, nth_error h j = Some c /\ c_par c <> [].
Proof.
  intros W. induction n as [|n IH]; intros i L1 L2; [lia|]. cbn [par_dep]. destruct (get_some h i L2) as (c & E). rewrite (proj2 (get_ok h i c) E). cbn [rbind].
  assert (PL : forall p, In p (c_par c) -> (p < i)%nat) by (apply (W i c E)).
  assert (F : forall ps s0, (forall p, In p ps -> (p < i)%nat) ->
    exists s, fold_left (fun acc p => rbind acc (fun s => rmap (fun t => s ++ t) (par_dep n h p))) ps (Ok s0) = Ok s /\ forall j, In j s <-> In j s0 \/ exists p, In p ps /\ reach h p j /\ exists c, nth_error h j = Some c /\ c_par c <> []).
  { induction ps as [|p ps IHp]; intros s0 PP; cbn [fold_left rbind].
    - exists s0. splits; auto. intros j. split; auto. intros [H|(p & [] & _)]; auto.
    - assert (Pi : (p < i)%nat) by (apply PP; cbn; auto). destruct (IH p) as (t & -> & Ht); [lia|lia|]. cbn [rmap].
      destruct (IHp (s0 ++ t)) as (s & -> & Hs); [intros q Q; apply PP; cbn; auto|]. exists s. split; auto. intros j. rewrite Hs, in_app_iff, Ht. split.
      + intros [[H|H]|(q & Q & H)]; auto; right; [exists p|exists q]; cbn; tauto.
      + intros [H|(q & [<-|Q] & H)]; auto. right. eauto. }
  destruct (F (c_par c) (match c_par c with [] => [] | _ => [i] end) PL) as (s & -> & Hs). exists s. split; auto. intros j. rewrite Hs, (reach_inv h i j c E).
  assert (SE : In j (match c_par c with [] => [] | _ => [i] end) <-> i = j /\ c_par c <> []) by (destruct (c_par c); cbn; intuition congruence). rewrite SE. split.
  - intros [(<- & P)|(q & Q & R & G)]; split; auto; [exists c; auto|right; eauto].
  - intros ([<-|(q & Q & R)] & G); [|right; exists q; auto]. destruct G as (c' & E' & P). left. split; auto. congruence.
Qed.

Lemma map_dep_ok h l : wf_heap h -> (forall i, In i l -> (i < length h)%nat) ->
  exists s, map_dep h l = Ok s /\ forall j, In j s <-> exists i, In i l /\ reach h i j /\ exists c, nth_error h j = Some c /\ c_par c <> [].
Proof.
  intros W. induction l as [|i l IH]; intros L; cbn [map_dep].
  - exists []. split; auto. intros j. split; [intros []|]. intros (i & [] & _).
  - unfold getParentsDep. destruct (par_dep_ok h W (S (length h)) i) as (s & -> & Hs); [assert (i < length h)%nat by (apply L; cbn; auto); lia|apply L; cbn; auto|]. cbn [rbind].
    destruct IH as (t & -> & Ht); [intros k K; apply L; cbn; auto|]. cbn [rmap]. exists (s ++ t). split; auto. intros j. rewrite in_app_iff, Hs, Ht. split.
    + intros [H|(k & K & H)]; [exists i|exists k]; cbn; tauto.
    + intros (k & [<-|K] & H); auto. right. eauto.
Qed.
Lemma par_all_ok h i c : wf_heap h -> nth_error h i = Some c -> exists s, getParentsAll h i = Ok s /\ forall j, In j s <-> j = i \/ reach h i j /\ exists c, nth_error h j = Some c /\ c_par c <> [].
Proof.
  intros W E. unfold getParentsAll. rewrite (proj2 (get_ok h i c) E). cbn [rbind]. pose proof (nth_lt _ _ _ E) as L.
  assert (PL : forall p, In p (c_par c) -> (p < i)%nat) by (apply (W i c E)).
  assert (F : forall ps s0, (forall p, In p ps -> (p < i)%nat) ->
    exists s, fold_left (fun acc p => rbind acc (fun s => rmap (fun t => s ++ t) (getParentsDep h p))) ps (Ok s0) = Ok s /\ forall j, In j s <-> In j s0 \/ exists p, In p ps /\ reach h p j /\ exists c, nth_error h j = Some c /\ c_par c <> []).
  { induction ps as [|p ps IHp]; intros s0 PP; cbn [fold_left rbind].
    - exists s0. splits; auto. intros j. split; auto. intros [H|(p & [] & _)]; auto.
    - assert (Pi : (p < i)%nat) by (apply PP; cbn; auto). unfold getParentsDep at 2. destruct (par_dep_ok h W (S (length h)) p) as (t & -> & Ht); [lia|lia|]. cbn [rmap].
      destruct (IHp (s0 ++ t)) as (s & -> & Hs); [intros q Q; apply PP; cbn; auto|]. exists s. split; auto. intros j. rewrite Hs, in_app_iff, Ht. split.
      + intros [[H|H]|(q & Q & H)]; auto; right; [exists p|exists q]; cbn; tauto.
      + intros [H|(q & [<-|Q] & H)]; auto. right. eauto. }
  destruct (F (c_par c) [i] PL) as (s & -> & Hs). exists s. split; auto. intros j. rewrite Hs, (reach_inv h i j c E). cbn. split.
  - intros [[<-|[]]|(q & Q & R & G)]; auto. right. split; eauto.
  - intros [->|([<-|(q & Q & R)] & G)]; auto. right. exists q. auto.
Qed.
