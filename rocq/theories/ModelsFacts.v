(** Expressions, lists of equations, and the effect of each step on their solutions. *)
From Coq Require Import Reals Lra Lia List Bool Arith Permutation.
From Verif Require Import Base ND NDSpec NDFacts NDFacts2 Models ModelsSpec.
Import List ListNotations.
Open Scope R_scope.

Arguments mem : simpl never.
Lemma mem_iff v l : mem v l = true <-> In v l.
Proof. unfold mem. rewrite existsb_exists. split; [intros (x & H & E); apply Nat.eqb_eq in E; subst; auto|]. intros H. exists v. split; auto. apply Nat.eqb_refl. Qed.
Lemma mem_false v l : mem v l = false <-> ~ In v l.
Proof. rewrite <- mem_iff. destruct (mem v l); split; intros; try congruence; tauto. Qed.
Lemma remove1_in v l : NoDup l -> forall w, In w (remove1 v l) <-> In w l /\ w <> v.
Proof.
  induction l as [|u l IH]; intros N w; cbn; [tauto|]. inversion N; subst.
  destruct (Nat.eqb_spec v u) as [->|D]; cbn; [|rewrite IH by auto]; intuition; subst; try tauto; intuition congruence.
Qed.
Lemma remove1_nodup v l : NoDup l -> NoDup (remove1 v l).
Proof.
  induction l as [|u l IH]; cbn; auto. intros N. inversion N; subst. destruct (Nat.eqb v u); auto. constructor; auto.
  rewrite remove1_in by auto. tauto.
Qed.
Lemma esub_atoms v s e w : In w (atoms (esub v s e)) -> (In w (atoms e) /\ w <> v) \/ (In v (atoms e) /\ In w (atoms s)).
Proof.
  induction e; cbn; intros H; auto; try tauto.
  - destruct (Nat.eqb_spec v0 v) as [->|D]; cbn in *; auto. destruct H as [<-|[]]. auto.
  all: apply in_app_iff in H; rewrite !in_app_iff; destruct H as [H|H]; [apply IHe1 in H|apply IHe2 in H]; tauto.
Qed.
Lemma eval_ext e env env' : (forall v, In v (atoms e) -> env v = env' v) -> eval e env = eval e env'.
Proof. induction e; cbn; intros H; auto; try (rewrite IHe by auto); try (rewrite IHe1, IHe2 by (intros; apply H, in_app_iff; auto)); auto. Qed.
Lemma eval_esub v s e env : eval (esub v s e) env = eval e (upd env v (eval s env)).
Proof. induction e; cbn; auto; [|congruence..]. unfold upd. destruct (Nat.eqb v0 v); auto. Qed.
Lemma eval_upd e env v x : ~ In v (atoms e) -> eval e (upd env v x) = eval e env.
Proof. intros H. apply eval_ext. intros w Hw. unfold upd. destruct (Nat.eqb_spec w v); subst; tauto. Qed.
Lemma upd_self env v : forall w, upd env v (env v) w = env w.
Proof. intros. unfold upd. destruct (Nat.eqb_spec w v); subst; auto. Qed.

Lemma lookup_In v e l : lookup v l = Some e -> In (v, e) l.
Proof. induction l as [|[w e'] l IH]; cbn; [congruence|]. destruct (Nat.eqb_spec v w); intros H; [injection H as ->; subst|]; auto. Qed.
Lemma lookup_some v l : In v (map fst l) -> exists e, lookup v l = Some e.
Proof. induction l as [|[w e'] l IH]; cbn; [tauto|]. destruct (Nat.eqb_spec v w); eauto. intros [H|H]; auto. congruence. Qed.
Lemma lookup_uniq v e e' l : NoDup (map fst l) -> lookup v l = Some e -> In (v, e') l -> e' = e.
Proof.
  induction l as [|[w u] l IH]; cbn; intros N L I; [tauto|]. inversion N; subst. destruct (Nat.eqb_spec v w) as [->|D].
  - injection L as ->. destruct I as [I|I]; [congruence|]. apply (in_map fst) in I. tauto.
  - destruct I as [I|I]; [congruence|auto].
Qed.
Lemma del_In v l w e : In (w, e) (del v l) <-> In (w, e) l /\ w <> v.
Proof. unfold del. rewrite filter_In. cbn. destruct (Nat.eqb_spec v w); cbn; intuition congruence. Qed.
Lemma del_keys v l : NoDup (map fst l) -> NoDup (map fst (del v l)) /\ forall w, In w (map fst (del v l)) <-> In w (map fst l) /\ w <> v.
Proof.
  intros N. split.
  - induction l as [|[w e] l IH]; cbn; auto. inversion N; subst. destruct (Nat.eqb v w); cbn; auto. constructor; auto.
    intros H. apply in_map_iff in H as ([w' e'] & Ew & H). cbn in Ew. subst w'. apply del_In in H as (H & _). apply (in_map fst) in H. tauto.
  - intros w. split.
    + intros H. apply in_map_iff in H as ([w' e'] & Ew & H). cbn in Ew. subst w'. apply del_In in H as (H & Nw). apply (in_map fst) in H. tauto.
    + intros (H & Nw). apply in_map_iff in H as ([w' e'] & Ew & H). cbn in Ew. subst w'. apply in_map_iff. exists (w, e'). rewrite del_In. auto.
Qed.

Section S.
Variable simp : expr -> expr.
Variable solve : expr -> nat -> nat -> list expr.
Variable diff : expr -> nat -> expr.
Variable by_id : list nat -> list nat.
Hypothesis SO : sympy_ok simp solve diff by_id.

Lemma subst_keys v s l : map fst (subst_children simp v s l) = map fst l.
Proof. unfold subst_children. rewrite map_map. apply map_ext. intros [w e]. cbn. destruct (mem v (atoms e)); reflexivity. Qed.
Lemma subst_In v s l w e : In (w, e) (subst_children simp v s l) -> exists e', In (w, e') l /\
  ((~ In v (atoms e') /\ e = e') \/ (In v (atoms e') /\ e = simp (esub v s e'))).
Proof.
  unfold subst_children. rewrite in_map_iff. intros ([w' e'] & E & H). cbn in E. destruct (mem v (atoms e')) eqn:M; injection E as <- <-; exists e'; split; auto.
  - right. apply mem_iff in M. auto.
  - left. apply mem_false in M. auto.
Qed.
Lemma In_subst v s l w e' : In (w, e') l -> exists e, In (w, e) (subst_children simp v s l) /\
  ((~ In v (atoms e') /\ e = e') \/ (In v (atoms e') /\ e = simp (esub v s e'))).
Proof.
  intros H. unfold subst_children. destruct (mem v (atoms e')) eqn:M.
  - exists (simp (esub v s e')). split; [|right; apply mem_iff in M; auto]. apply in_map_iff. exists (w, e'). cbn. rewrite M. auto.
  - exists e'. split; [|left; apply mem_false in M; auto]. apply in_map_iff. exists (w, e'). cbn. rewrite M. auto.
Qed.
Lemma simp_atoms v s e w : In w (atoms (simp (esub v s e))) -> (In w (atoms e) /\ w <> v) \/ (In v (atoms e) /\ In w (atoms s)).
Proof. intros H. apply (so_atoms _ _ _ _ SO) in H. apply esub_atoms in H. auto. Qed.
Lemma subst_atoms v s l w e : In (w, e) (subst_children simp v s l) -> exists e', In (w, e') l /\
  forall u, In u (atoms e) -> (In u (atoms e') /\ u <> v) \/ (In v (atoms e') /\ In u (atoms s)).
Proof.
  intros H. apply subst_In in H as (e' & I & [(N & ->)|(N & ->)]); exists e'; split; auto.
  - intros u Hu. left. split; auto. intros ->. auto.
  - intros u Hu. apply simp_atoms in Hu. auto.
Qed.
Lemma simp_eval v s e env : env v = eval s env -> eval (simp (esub v s e)) env = eval e env.
Proof. intros H. rewrite (so_val _ _ _ _ SO), eval_esub. apply eval_ext. intros w _. rewrite <- H. apply upd_self. Qed.
Lemma subst_sol v s l env : env v = eval s env -> sol (subst_children simp v s l) env <-> sol l env.
Proof.
  intros H. split; intros HS w e I.
  - destruct (In_subst v s l w e I) as (e1 & I1 & [(N & ->)|(N & ->)]); rewrite (HS _ _ I1); auto. apply simp_eval; auto.
  - destruct (subst_In v s l w e I) as (e1 & I1 & [(N & ->)|(N & ->)]); rewrite (HS _ _ I1); auto. symmetry. apply simp_eval; auto.
Qed.
Lemma del_sol v e l env : NoDup (map fst l) -> lookup v l = Some e -> sol l env <-> sol (del v l) env /\ env v = eval e env.
Proof.
  intros N L. split.
  - intros HS. split; [|apply HS, lookup_In; auto]. intros w e' I. apply HS. apply del_In in I. tauto.
  - intros (HS & Hv) w e' I. destruct (Nat.eq_dec w v) as [->|Nw]; [|apply HS, del_In; auto]. rewrite (lookup_uniq v e e' l N L I). auto.
Qed.
Lemma sol_ext l env env' : (forall v e w, In (v, e) l -> w = v \/ In w (atoms e) -> env w = env' w) -> sol l env -> sol l env'.
Proof. intros H HS v e I. rewrite <- (H v e v I) by auto. rewrite (HS v e I). apply eval_ext. intros. apply (H v e); auto. Qed.
Lemma sol_app l l' env : sol (l ++ l') env <-> sol l env /\ sol l' env.
Proof. split; [intros H; split; intros v e I; apply H, in_app_iff; auto|intros (H & H') v e I; apply in_app_iff in I as [I|I]; auto]. Qed.
Lemma sol_one v e env : sol [(v, e)] env <-> env v = eval e env.
Proof. split; [intros H; apply H; cbn; auto|intros H w u [[= <- <-]|[]]; auto]. Qed.
End S.
