(** Proofs: masks of multivariate functions. *)
From Coq Require Import Reals Lra Lia List Bool Arith.
From Verif Require Import Base ND NDSpec.
Import List ListNotations.
Open Scope R_scope.

Lemma in_rng_iff x a b : in_rng x a b = true <-> a <= x <= b.
Proof. unfold in_rng. rewrite andb_true_iff, !rle_true. tauto. Qed.
Lemma mask_or_m m X a b : mask_or m X a b = m || mask_or false X a b.
Proof.
  revert m a b. induction X as [|x X IH]; intros m [|p a] [|q b]; cbn [mask_or]; rewrite ?orb_false_r; auto.
  rewrite IH, (IH (false || _)). cbn [orb]. rewrite orb_assoc. auto.
Qed.
Lemma mask_or_iff X a b : length a = length X -> length b = length X -> mask_or false X a b = false <-> none_in X a b.
Proof.
  revert a b. induction X as [|x X IH]; intros [|p a] [|q b] A B; simpl in A, B; try lia.
  - cbn [mask_or]. split; auto. intros _ i I. simpl in I. lia.
  - cbn [mask_or orb]. rewrite mask_or_m, orb_false_iff, IH by lia. split.
    + intros [E N] [|i] I; simpl in *; [rewrite <- in_rng_iff, E; discriminate|apply N; lia].
    + intros N. split; [destruct (in_rng x p q) eqn:E; auto; apply in_rng_iff in E; exfalso; apply (N O); simpl; auto; lia|].
      intros i I. apply (N (S i)). simpl. lia.
Qed.
Lemma inside_iff X a b : length a = length X -> length b = length X -> inside X a b = true <-> all_in X a b.
Proof.
  revert a b. induction X as [|x X IH]; intros [|p a] [|q b] A B; simpl in A, B; try lia.
  - cbn [inside]. split; auto. intros _ i I. simpl in I. lia.
  - cbn [inside]. rewrite andb_true_iff, in_rng_iff, IH by lia. split.
    + intros [E N] [|i] I; simpl in *; [auto|apply N; lia].
    + intros N. split; [apply (N O); simpl; lia|]. intros i I. apply (N (S i)). simpl. lia.
Qed.

(** ** Array calls *)
Definition widths (n : nat) (cols : list (list R)) : Prop := Forall (fun c => length c = n) cols.
Lemma points_S n cols : widths (S n) cols -> points (S n) cols = map (hd 0) cols :: points n (map (@tl R) cols).
Proof.
  intros W. unfold points. cbn [seq map]. f_equal.
  - apply map_ext_in. intros c C. destruct c; auto.
  - rewrite <- seq_shift, map_map. apply map_ext. intros k. rewrite map_map. apply map_ext_in. intros c C. destruct c; auto. destruct k; auto.
Qed.
Lemma widths_tl n cols : widths (S n) cols -> widths n (map (@tl R) cols).
Proof. intros W. apply Forall_map. eapply Forall_impl; [|exact W]. intros [|x c] H; simpl in *; lia. Qed.
Lemma select_len {A B} mask (l : list A) (l' : list B) : length l = length mask -> length l' = length mask -> length (select mask l) = length (select mask l').
Proof. revert l l'. induction mask as [|[] m IH]; intros [|x l] [|y l'] L L'; simpl in *; try lia; auto. Qed.
Lemma points_select n mask cols c : length mask = n -> widths n cols -> In c cols -> points (length (select mask c)) (map (select mask) cols) = select mask (points n cols).
Proof.
  revert n cols c. induction mask as [|m mask IH]; intros n cols c L W C; simpl in L; subst n.
  - cbn [select]. unfold points. destruct c; auto.
  - rewrite points_S by auto. pose proof (widths_tl _ _ W) as W'. assert (CC : length c = S (length mask)) by (unfold widths in W; rewrite Forall_forall in W; auto). destruct c as [|x c]; [discriminate|].
    assert (E : map (select (m :: mask)) cols = map (fun c => if m then hd 0 c :: select mask (tl c) else select mask (tl c)) cols).
    { apply map_ext_in. intros c' C'. unfold widths in W; rewrite Forall_forall in W. specialize (W c' C'). destruct c'; [discriminate|]. destruct m; auto. }
    rewrite E. specialize (IH _ (map (@tl R) cols) c eq_refl W' ltac:(apply in_map_iff; exists (x :: c); auto)). rewrite map_map in IH. destruct m; cbn [select].
    + cbn [length]. rewrite points_S.
      * f_equal; [rewrite map_map; auto|]. rewrite map_map. cbn [tl]. auto.
      * apply Forall_map. unfold widths in W. eapply Forall_impl; [|exact W]. intros c' H. cbn [length]. f_equal. apply select_len; [destruct c'; simpl in *; lia|simpl in CC; lia].
    + auto.
Qed.
Lemma scatter_select {A} (g : A -> R) mask (rows : list A) : length rows = length mask -> scatter mask (map g (select mask rows)) = map (fun p : bool * A => if fst p then g (snd p) else 0) (combine mask rows).
Proof.
  revert rows. induction mask as [|[] m IH]; intros [|r rows] L; simpl in L; try lia; auto; cbn [select map scatter combine fst snd]; f_equal; apply IH; lia.
Qed.
Lemma mask_cols_len n : forall cols a b m, length m = n -> widths n cols -> length (mask_cols m cols a b) = n.
Proof.
  induction cols as [|c cols IH]; intros [|p a] [|q b] m L W; cbn [mask_cols]; auto. inversion W; subst. apply IH; auto. unfold mask_and, mask_col. rewrite map_length, combine_length, map_length. lia.
Qed.
Lemma mask_cols_nth n : forall cols a b m k, length a = length cols -> length b = length cols -> length m = n -> widths n cols -> (k < n)%nat ->
  nth k (mask_cols m cols a b) false = nth k m false && inside (map (fun c => nth k c 0) cols) a b.
Proof.
  induction cols as [|c cols IH]; intros [|p a] [|q b] m k A B L W K; simpl in A, B; try lia; cbn [mask_cols map inside]; [rewrite andb_true_r; auto|].
  inversion W; subst. rewrite IH; auto; try lia.
  - rewrite andb_assoc. f_equal. unfold mask_and. rewrite (nth_indep _ false (fst (false, false) && snd (false, false))) by (rewrite map_length, combine_length; unfold mask_col; rewrite map_length; lia).
    rewrite (map_nth (fun p => fst p && snd p)). rewrite combine_nth by (unfold mask_col; rewrite map_length; lia). cbn [fst snd]. f_equal. unfold mask_col. rewrite (nth_indep _ false (in_rng 0 p q)) by (rewrite map_length; lia). rewrite (map_nth (fun x => in_rng x p q)). auto.
  - unfold mask_and, mask_col. rewrite map_length, combine_length, map_length. lia.
Qed.
Lemma nd_vector_points F cols n : cols <> [] -> length (nd_a F) = length cols -> length (nd_b F) = length cols -> widths n cols ->
  nd_vector F cols = map (nd_point F) (points n cols).
Proof.
  intros NE A B W. destruct cols as [|c cols]; [tauto|]. unfold nd_vector. destruct (nd_a F) as [|p a] eqn:EA; [discriminate|]. destruct (nd_b F) as [|q b] eqn:EB; [discriminate|]. simpl in A, B.
  inversion W; subst. set (n := length c) in *. set (mask := mask_cols _ _ _ _). assert (LM : length mask = n) by (apply mask_cols_len; auto; unfold mask_col; rewrite map_length; auto).
  rewrite (points_select n) by (simpl; auto). assert (LP : length (points n (c :: cols)) = length mask) by (unfold points; rewrite map_length, seq_length; auto). rewrite scatter_select by auto.
  rewrite map_map. apply nth_ext with (post F (if false then nd_f F [] else 0)) (nd_point F []); [rewrite !map_length, combine_length; lia|]. intros k K. rewrite map_length, combine_length in K.
  rewrite (nth_indep _ _ (post F (if fst (false, @nil R) then nd_f F (snd (false, @nil R)) else 0))) by (rewrite map_length, combine_length; lia). rewrite (map_nth (fun p : bool * list R => post F (if fst p then nd_f F (snd p) else 0))), combine_nth by auto. rewrite map_nth. cbn [fst snd].
  unfold nd_point. f_equal. assert (HP : nth k (points n (c :: cols)) [] = map (fun c => nth k c 0) (c :: cols)).
  { unfold points. rewrite (nth_indep _ [] (map (fun c => nth 0 c 0) (c :: cols))) by (rewrite map_length, seq_length; lia). rewrite (map_nth (fun k => map (fun c => nth k c 0) (c :: cols))), seq_nth by lia. auto. }
  rewrite HP, EA, EB. replace (inside (map (fun c0 => nth k c0 0) (c :: cols)) (p :: a) (q :: b)) with (nth k mask false); auto.
  unfold mask. rewrite (mask_cols_nth n) by (auto; try lia; unfold mask_col; rewrite map_length; auto). cbn [map inside]. f_equal.
  unfold mask_col. rewrite (nth_indep _ false (in_rng 0 p q)) by (rewrite map_length; fold n; lia). rewrite (map_nth (fun x => in_rng x p q)). auto.
Qed.
Lemma post0 F : post F 0 = 0. Proof. unfold post. destruct (nd_abs F); auto. apply Rabs_R0. Qed.
Lemma post_zero F y : post F y = 0 <-> y = 0.
Proof. unfold post. destruct (nd_abs F); [|tauto]. split; [intros H; destruct (Req_dec y 0) as [E|E]; [auto|apply Rabs_no_R0 in E; tauto]|intros ->; apply Rabs_R0]. Qed.
Lemma nd_single F X : X <> [] -> length (nd_a F) = length X -> length (nd_b F) = length X -> nd_vector F (map (fun x => [x]) X) = [nd_point F X].
Proof.
  intros NE A B. rewrite (nd_vector_points F _ 1); rewrite ?map_length; auto.
  - unfold points. cbn [seq map]. rewrite map_map. f_equal. f_equal. rewrite <- (map_id X) at 2. auto.
  - destruct X; [tauto|discriminate].
  - apply Forall_map. apply Forall_forall. auto.
Qed.
Lemma nd_scalar_eq F X : X <> [] -> length (nd_a F) = length X -> length (nd_b F) = length X -> nd_scalar F X = post F (if mask_or false X (nd_a F) (nd_b F) then nd_f F X else 0).
Proof. intros NE A B. unfold nd_scalar. destruct X as [|x X]; [tauto|]. destruct (nd_a F); [discriminate|]. destruct (nd_b F); [discriminate|]. cbn [mask_or orb]. auto. Qed.
Lemma nd_agree F X : X <> [] -> length (nd_a F) = length X -> length (nd_b F) = length X ->
  nd_scalar F X = nd_point F X <-> all_in X (nd_a F) (nd_b F) \/ none_in X (nd_a F) (nd_b F) \/ nd_f F X = 0.
Proof.
  intros NE A B. rewrite nd_scalar_eq by auto. unfold nd_point. pose proof (mask_or_iff X _ _ A B) as MO. pose proof (inside_iff X _ _ A B) as MA.
  assert (IM : inside X (nd_a F) (nd_b F) = true -> mask_or false X (nd_a F) (nd_b F) = true).
  { intros I. apply not_false_iff_true. intros E. apply MO in E. apply MA in I. destruct X as [|x X]; [tauto|]. exfalso. apply (E O); [simpl; lia|]. apply (I O). simpl. lia. }
  destruct (inside X (nd_a F) (nd_b F)) eqn:EI.
  - rewrite IM by auto. split; auto. intros _. left. apply MA. auto.
  - destruct (mask_or false X (nd_a F) (nd_b F)) eqn:EM.
    + rewrite post0, post_zero. split; auto. intros [H|[H|H]]; auto; [apply MA in H; discriminate|apply MO in H; discriminate].
    + split; auto. intros _. right. left. apply MO. auto.
Qed.
