(** Proofs: the dense-grid loop. *)
From Coq Require Import Reals Lra Lia ZArith List Bool Arith FinFun.
From Verif Require Import Base Comb Interp InterpSpec PolyFacts Grid GridSpec.
Import List ListNotations.
Open Scope R_scope.

(** ** The odometer *)
Fixpoint digits (ms : list nat) (n : nat) : list nat :=
  match ms with [] => [] | m :: ms' => ((n / prod_nat ms') mod m)%nat :: digits ms' n end.
Fixpoint carry (ms idx : list nat) : bool :=
  match ms, idx with m :: ms', i :: idx' => negb (Nat.ltb (S i) m) && carry ms' idx' | _, _ => true end.
Lemma adv_snoc l r m i : length r = length l ->
  advance_rev (l ++ [m]) (r ++ [i]) = advance_rev l r ++ [if carry l r then if Nat.ltb (S i) m then S i else O else i].
Proof.
  revert r. induction l as [|m' l IH]; intros [|i' r] L; simpl in L; try lia.
  - simpl. destruct (Nat.ltb (S i) m); auto.
  - cbn [app advance_rev carry]. destruct (Nat.ltb (S i') m'); cbn [negb andb]; auto. rewrite IH by lia. reflexivity.
Qed.
Lemma carry_app l l' r r' : length r = length l -> carry (l ++ l') (r ++ r') = carry l r && carry l' r'.
Proof. revert r. induction l as [|m l IH]; intros [|i r] L; simpl in L; try lia; auto. cbn [app carry]. rewrite IH by lia. rewrite andb_assoc. auto. Qed.
Lemma carry_rev l r : length r = length l -> carry (rev l) (rev r) = carry l r.
Proof.
  revert r. induction l as [|m l IH]; intros [|i r] L; simpl in L; try lia; auto. cbn [rev]. rewrite carry_app by (rewrite !rev_length; lia).
  rewrite IH by lia. cbn [carry]. rewrite andb_true_r. apply andb_comm.
Qed.
Lemma advance_cons m ms i idx : length idx = length ms ->
  advance (m :: ms) (i :: idx) = (if carry ms idx then if Nat.ltb (S i) m then S i else O else i) :: advance ms idx.
Proof.
  intros L. unfold advance. cbn [rev]. rewrite adv_snoc by (rewrite !rev_length; auto). rewrite rev_app_distr. cbn [rev app]. rewrite carry_rev by auto. reflexivity.
Qed.
Lemma digits_length ms n : length (digits ms n) = length ms.
Proof. induction ms; simpl; auto. Qed.
Lemma prod_pos ms : Forall (fun m => (1 <= m)%nat) ms -> (1 <= prod_nat ms)%nat.
Proof. induction 1; [simpl; lia|]. unfold prod_nat in *. simpl. nia. Qed.
Lemma succ_div n N : (1 <= N)%nat -> (S n / N = if Nat.eqb (S n mod N) 0 then S (n / N) else n / N)%nat.
Proof.
  intros NN. pose proof (Nat.div_mod n N ltac:(lia)) as D. pose proof (Nat.mod_upper_bound n N ltac:(lia)) as B.
  destruct (Nat.eq_dec (S (n mod N)) N) as [E|E].
  - assert (Q : (S n / N = S (n / N) /\ S n mod N = 0)%nat).
    { split; [symmetry; apply (Nat.div_unique _ _ _ 0); nia|symmetry; apply (Nat.mod_unique _ _ (S (n / N))); nia]. }
    destruct Q as [-> ->]. reflexivity.
  - assert (Q : (S n / N = n / N /\ S n mod N = S (n mod N))%nat).
    { split; [symmetry; apply (Nat.div_unique _ _ _ (S (n mod N))); nia|symmetry; apply (Nat.mod_unique _ _ (n / N)); nia]. }
    destruct Q as [-> ->]. reflexivity.
Qed.
Lemma carry_digits ms n : Forall (fun m => (1 <= m)%nat) ms -> carry ms (digits ms n) = Nat.eqb (S n mod prod_nat ms) 0.
Proof.
  induction ms as [|m ms IH]; intros F; [reflexivity|].
  inversion F; subst. cbn [digits carry]. rewrite IH by auto. set (N := prod_nat ms). assert (NN : (1 <= N)%nat) by (apply prod_pos; auto).
  change (prod_nat (m :: ms)) with (m * N)%nat. rewrite (Nat.mul_comm m N), Nat.mod_mul_r by lia. pose proof (succ_div n N NN) as SD.
  destruct (Nat.eqb_spec (S n mod N) 0) as [E|E].
  - rewrite E, SD. rewrite andb_true_r. rewrite Nat.add_0_l. pose proof (succ_div (n / N) m ltac:(lia)) as S2. pose proof (Nat.mod_upper_bound (n / N) m ltac:(lia)).
    pose proof (Nat.div_mod (n / N) m ltac:(lia)). pose proof (Nat.div_mod (S (n / N)) m ltac:(lia)). pose proof (Nat.mod_upper_bound (S (n / N)) m ltac:(lia)).
    destruct (Nat.eqb_spec (S (n / N) mod m) 0); destruct (Nat.ltb_spec (S (n / N mod m)) m); cbn [negb].
    + exfalso. rewrite S2 in *. nia.
    + symmetry. apply Nat.eqb_eq. nia.
    + symmetry. apply Nat.eqb_neq. nia.
    + exfalso. rewrite S2 in *. nia.
  - rewrite andb_false_r. symmetry. apply Nat.eqb_neq. nia.
Qed.
Lemma advance_digits ms n : Forall (fun m => (1 <= m)%nat) ms -> advance ms (digits ms n) = digits ms (S n).
Proof.
  induction ms as [|m ms IH]; intros F; [reflexivity|]. inversion F; subst. cbn [digits]. rewrite advance_cons by apply digits_length.
  rewrite IH, carry_digits by auto. f_equal. set (N := prod_nat ms). assert (NN : (1 <= N)%nat) by (apply prod_pos; auto). rewrite (succ_div n N NN).
  destruct (Nat.eqb (S n mod N) 0); auto. set (k := (n / N)%nat). pose proof (Nat.mod_upper_bound k m ltac:(lia)). pose proof (Nat.div_mod k m ltac:(lia)).
  destruct (Nat.ltb_spec (S (k mod m)) m).
  - apply (Nat.mod_unique _ _ (k / m)); nia.
  - apply (Nat.mod_unique _ _ (S (k / m))); nia.
Qed.
Lemma digits_0 ms : Forall (fun m => (1 <= m)%nat) ms -> digits ms 0 = repeat O (length ms).
Proof. induction 1; auto. cbn [digits length repeat]. rewrite IHForall. f_equal. rewrite Nat.div_0_l by (pose proof (prod_pos l H0); lia). apply Nat.mod_0_l. lia. Qed.
Lemma visited_digits ms n k : Forall (fun m => (1 <= m)%nat) ms -> visited ms (digits ms k) n = map (digits ms) (seq k n).
Proof. intros F. revert k. induction n; intros k; auto. cbn [visited seq map]. rewrite advance_digits by auto. rewrite IHn. auto. Qed.
Lemma seq_blocks m N : seq 0 (m * N) = flat_map (fun i => map (fun k => i * N + k)%nat (seq 0 N)) (seq 0 m).
Proof.
  induction m; auto. rewrite seq_S, flat_map_app, <- IHm. cbn [flat_map plus]. rewrite app_nil_r. replace (S m * N)%nat with (m * N + N)%nat by lia. rewrite seq_app. f_equal.
  cbn [plus]. generalize (m * N)%nat. clear. intros s. rewrite <- (Nat.add_0_r s) at 1. generalize 0%nat. induction N; intros k; auto. cbn [seq map]. f_equal. rewrite <- IHN. f_equal. lia.
Qed.
Lemma digits_shift ms i k : Forall (fun m => (1 <= m)%nat) ms -> digits ms (i * prod_nat ms + k) = digits ms k.
Proof.
  revert i. induction ms as [|m ms IH]; intros i F; auto. inversion F; subst. cbn [digits]. change (prod_nat (m :: ms)) with (m * prod_nat ms)%nat.
  replace (i * (m * prod_nat ms) + k)%nat with (i * m * prod_nat ms + k)%nat by ring. rewrite IH by auto. f_equal.
  rewrite Nat.div_add_l by (pose proof (prod_pos ms H2); lia). rewrite Nat.add_comm, Nat.mod_add by lia. auto.
Qed.
Lemma digits_product ms : Forall (fun m => (1 <= m)%nat) ms -> map (digits ms) (seq 0 (prod_nat ms)) = product (map (seq 0) ms).
Proof.
  induction ms as [|m ms IH]; intros F; [reflexivity|]. inversion F; subst. change (prod_nat (m :: ms)) with (m * prod_nat ms)%nat. rewrite seq_blocks. cbn [map product]. rewrite <- IH by auto.
  rewrite flat_map_concat_map, concat_map, map_map, flat_map_concat_map. f_equal. apply map_ext_in. intros i I. apply in_seq in I. rewrite !map_map. apply map_ext_in. intros k K. apply in_seq in K.
  cbn [digits]. rewrite digits_shift by auto. f_equal. rewrite Nat.div_add_l by (pose proof (prod_pos ms H2); lia). rewrite (Nat.div_small k) by lia. rewrite Nat.add_0_r. apply Nat.mod_small. lia.
Qed.
Lemma visited_all ms : Forall (fun m => (1 <= m)%nat) ms -> visited ms (repeat O (length ms)) (prod_nat ms) = product (map (seq 0) ms).
Proof. intros F. rewrite <- digits_0, visited_digits, digits_product by auto. auto. Qed.

(** ** Products *)
Lemma product_In {A} (ls : list (list A)) t : In t (product ls) <-> Forall2 (fun x l => In x l) t ls.
Proof.
  revert t. induction ls as [|l ls IH]; intros t; cbn [product].
  - split; [intros [<-|[]]; constructor|]. intros H. inversion H. left. auto.
  - rewrite in_flat_map. split.
    + intros (x & X & T). apply in_map_iff in T as (t' & <- & T). constructor; auto. apply IH. auto.
    + intros H. inversion H; subst. exists x. split; auto. apply in_map. apply IH. auto.
Qed.
Lemma NoDup_app2 {A} (l m : list A) : NoDup l -> NoDup m -> (forall x, In x l -> ~ In x m) -> NoDup (l ++ m).
Proof. induction 1; intros M D; auto. simpl. constructor; [rewrite in_app_iff; intros [?|?]; [auto|]; apply (D x); simpl; auto|]. apply IHNoDup; auto. intros y Y. apply D. simpl. auto. Qed.
Lemma NoDup_flat {A B} (f : A -> list B) l : NoDup l -> (forall x, In x l -> NoDup (f x)) -> (forall x y z, In x l -> In y l -> In z (f x) -> In z (f y) -> x = y) -> NoDup (flat_map f l).
Proof.
  induction 1; intros N D; [constructor|]. cbn [flat_map]. apply NoDup_app2.
  - apply N. simpl. auto.
  - apply IHNoDup; [intros; apply N; simpl; auto|]. intros. eapply D; simpl; eauto.
  - intros z Z1 Z2. apply in_flat_map in Z2 as (y & Y & Z2). assert (x = y) by (eapply D; simpl; eauto). subst. auto.
Qed.
Lemma NoDup_cons_map {A} (x : A) l : NoDup l -> NoDup (map (cons x) l).
Proof. intros N. apply Injective_map_NoDup; auto. intros s t E. injection E. auto. Qed.
Lemma product_nodup {A} (ls : list (list A)) : Forall (@NoDup A) ls -> NoDup (product ls).
Proof.
  induction 1; cbn [product]; [constructor; [auto|constructor]|]. apply NoDup_flat; auto.
  - intros. apply NoDup_cons_map. auto.
  - intros a b z _ _ Z1 Z2. apply in_map_iff in Z1 as (? & <- & _). apply in_map_iff in Z2 as (? & E & _). injection E. auto.
Qed.
Lemma product_snoc {A} (ls : list (list A)) l : product (ls ++ [l]) = flat_map (fun r => map (fun y => r ++ [y]) l) (product ls).
Proof.
  induction ls as [|l' ls IH].
  - cbn [app product flat_map]. rewrite app_nil_r. induction l; simpl; f_equal; auto.
  - cbn [app product]. rewrite IH. induction l' as [|x l' IH']; auto. cbn [flat_map]. rewrite flat_map_app, IH'. f_equal. clear.
    induction (product ls) as [|r rs IHr]; auto. cbn [flat_map map]. rewrite map_app, IHr. f_equal. rewrite map_map. auto.
Qed.
Lemma product_map {A B} (g : A -> B) ls : product (map (map g) ls) = map (map g) (product ls).
Proof.
  induction ls as [|l ls IH]; auto. cbn [map product]. rewrite IH. clear. induction l; auto. cbn [map flat_map]. rewrite IHl, map_app. f_equal. rewrite !map_map. auto.
Qed.
Lemma below_iff ms t : below ms t <-> Forall2 (fun x l => In x l) t (map (seq 0) ms).
Proof.
  split.
  - induction 1; cbn [map]; constructor; auto. apply in_seq. lia.
  - revert t. induction ms; intros t H; inversion H as [|x l t1 l1 X Y]; subst; constructor; auto. apply in_seq in X. lia.
Qed.
Lemma digits_rank ms t : below ms t -> (lex_rank ms t < prod_nat ms)%nat /\ digits ms (lex_rank ms t) = t.
Proof.
  induction 1; [simpl; split; auto; lia|]. destruct IHbelow as [I1 I2]. cbn [lex_rank digits]. change (prod_nat (m :: ms)) with (m * prod_nat ms)%nat.
  split; [nia|]. assert (F : Forall (fun m => (1 <= m)%nat) ms) by (clear - H0; induction H0; constructor; auto; lia).
  rewrite digits_shift, I2 by auto. f_equal. rewrite Nat.div_add_l, (Nat.div_small (lex_rank ms t)) by lia. rewrite Nat.add_0_r. apply Nat.mod_small. auto.
Qed.

(** ** The sum *)
Lemma sumR_cons x l : sumR (x :: l) = x + sumR l.
Proof. reflexivity. Qed.
Lemma dense_loop_eq tables fs k num : Forall (fun m => (1 <= m)%nat) (map (@length R) tables) ->
  dense_loop tables (digits (map (@length R) tables) k) num fs =
  num + sumR (map (fun p => grid_temp tables (digits (map (@length R) tables) (fst p)) (snd p)) (combine (seq k (length fs)) fs)).
Proof.
  intros F. revert k num. induction fs as [|v fs IH]; intros k num; [simpl; ring|]. cbn [dense_loop length seq combine map]. rewrite advance_digits by auto. rewrite IH. rewrite sumR_cons. cbn [fst snd]. ring.
Qed.
Fixpoint sel (tables : list (list R)) (t : list nat) : R :=
  match tables, t with tab :: ts, i :: t' => nth i tab 0 * sel ts t' | _, _ => 1 end.
Lemma grid_temp_sel tables t v : grid_temp tables t v = v * sel tables t.
Proof.
  unfold grid_temp. revert t v. induction tables as [|tab ts IH]; intros [|i t] v; cbn [combine fold_left sel]; try ring. rewrite IH. cbn [fst snd]. ring.
Qed.
Lemma sumR_flat {A B} (g : B -> R) (f : A -> list B) l : sumR (map g (flat_map f l)) = sumR (map (fun x => sumR (map g (f x))) l).
Proof. induction l; auto. cbn [flat_map map]. rewrite map_app, sumR_app, IHl, sumR_cons. auto. Qed.
Lemma sumR_scal_l {A} c (g : A -> R) l : sumR (map (fun x => c * g x) l) = c * sumR (map g l).
Proof. induction l; cbn [map]; [simpl; ring|]. rewrite !sumR_cons, IHl. ring. Qed.
Lemma tensor_sum_product tables F : tensor_sum tables F = sumR (map (fun t => F t * sel tables t) (product (map (fun tab => seq 0 (length tab)) tables))).
Proof.
  revert F. induction tables as [|tab ts IH]; intros F; [simpl; ring|]. cbn [tensor_sum map product]. rewrite sumR_flat. f_equal. apply map_ext. intros i.
  rewrite IH, map_map, <- sumR_scal_l. f_equal. apply map_ext. intros t. cbn [sel]. ring.
Qed.
Lemma c_dense_ok tables F : tables <> [] -> Forall (fun tab => (1 <= length tab)%nat) tables -> (length tables <= prod_nat (map (@length R) tables))%nat ->
  c_dense tables (map F (product (map (seq 0) (map (@length R) tables)))) = Ok (tensor_sum tables F).
Proof.
  intros NE POS FIT. assert (PM : Forall (fun m => (1 <= m)%nat) (map (@length R) tables)) by (apply Forall_map; auto).
  rewrite <- digits_product by auto. set (ms := map (@length R) tables) in *. 
  assert (CD : forall fs, c_dense tables fs = if Nat.ltb (length fs) (length tables) then Err ERuntime else Ok (dense_loop tables (repeat O (length tables)) 0 fs)) by (intros; destruct tables; [tauto|reflexivity]).
  rewrite CD. rewrite !map_length, seq_length. destruct (Nat.ltb_spec (prod_nat ms) (length tables)); [lia|]. f_equal.
  replace (repeat O (length tables)) with (digits ms 0) by (rewrite digits_0 by auto; unfold ms; rewrite map_length; auto).
  unfold ms. rewrite dense_loop_eq by auto. fold ms. rewrite !map_length, seq_length. rewrite tensor_sum_product. rewrite Rplus_0_l. rewrite <- map_map with (f := @length R). fold ms. rewrite <- digits_product by auto.
  f_equal. assert (CE : forall l, combine l (map F (map (digits ms) l)) = map (fun n => (n, F (digits ms n))) l) by (induction l; simpl; f_equal; auto).
  rewrite CE, !map_map. apply map_ext. intros n. cbn [fst snd]. apply grid_temp_sel.
Qed.
