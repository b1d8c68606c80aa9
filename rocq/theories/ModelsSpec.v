(** Specification vocabulary for graphical models. *)
From Coq Require Import Reals List Bool Arith Permutation.
From Verif Require Import Base ND NDSpec Models.
Import List ListNotations.
Open Scope R_scope.

(** an assignment of values solves the equations *)
Definition sol (eqs : list (nat * expr)) (env : nat -> R) : Prop := forall v e, In (v, e) eqs -> env v = eval e env.

(** a model in order: free and dependent variables are disjoint and make up all variables, every dependent
    variable has one equation, the equations mention variables of the model only and are not circular, and the
    density is that of the free variables *)
Record wf_model (lo hi : nat -> R) (M : model) : Prop := WF {
  wf_free : NoDup (m_free M);
  wf_dep : NoDup (m_dep M);
  wf_all : NoDup (m_all M);
  wf_disj : forall v, In v (m_free M) -> In v (m_dep M) -> False;
  wf_parts : forall v, In v (m_all M) <-> In v (m_free M) \/ In v (m_dep M);
  wf_syms : incl (m_all M) (m_syms M);
  wf_keys : NoDup (map fst (m_eqs M));
  wf_eqs : forall v, In v (map fst (m_eqs M)) <-> In v (m_dep M);
  wf_atoms : forall v e, In (v, e) (m_eqs M) -> incl (atoms e) (m_all M);
  wf_rank : exists rank : nat -> nat, forall v e w, In (v, e) (m_eqs M) -> In w (atoms e) -> (rank w < rank v)%nat;
  wf_fac : Forall (wf_f lo hi) (m_dens M);
  wf_occ : forall w, occurs w (m_dens M) <-> In w (m_free M) }.

(** what is asked of sympy: simplification keeps values and brings in no variables; a solution for [a] mentions
    the solved-for side [d], not [a], and otherwise only variables of the equation; a derivative mentions no
    other variables; sorting by id only reorders *)
Record sympy_ok (simp : expr -> expr) (solve : expr -> nat -> nat -> list expr) (diff : expr -> nat -> expr) (by_id : list nat -> list nat) : Prop := SO {
  so_val : forall e env, eval (simp e) env = eval e env;
  so_atoms : forall e, incl (atoms (simp e)) (atoms e);
  so_solve : forall e d a u, In u (solve e d a) -> In d (atoms u) /\ ~ In a (atoms u) /\ forall w, In w (atoms u) -> w = d \/ In w (atoms e);
  so_diff : forall u d, incl (atoms (diff u d)) (atoms u);
  so_id : forall l, Permutation (by_id l) l }.
(** the equation solver is exact on a set of assignments: when it leaves one solution, that is the solution *)
Definition sole (solve : expr -> nat -> nat -> list expr) (real_at : expr -> bool) (e : expr) (d a : nat) (u : expr) : Prop :=
  solve e d a = [u] \/ filter real_at (solve e d a) = [u].
Definition exact_on (D : (nat -> R) -> Prop) (solve : expr -> nat -> nat -> list expr) (real_at : expr -> bool) : Prop :=
  forall e d a u, sole solve real_at e d a u -> forall env, D env -> (env d = eval e env <-> env a = eval u env).

(** the variables a sequence of steps takes away *)
Definition gone (ops : list op) : list nat := flat_map (fun o => match o with Elim v => [v] | Cond v _ => [v] | _ => [] end) ops.
(** an assignment agrees with the values conditioned on *)
Definition agrees (ops : list op) (env : nat -> R) : Prop := forall v x, In (Cond v x) ops -> env v = x.
Definition same_on (l : list nat) (env env' : nat -> R) : Prop := forall v, In v l -> env v = env' v.

(** a strictly monotone function from one open interval onto another *)
Definition mono_onto (h : R -> R) (c1 c2 l r : R) : Prop :=
  c1 < c2 /\ l < r /\ (forall y, c1 < y < c2 -> l < h y < r) /\ (forall x, l < x < r -> exists y, c1 < y < c2 /\ h y = x) /\
  ((forall y z, c1 < y -> y < z -> z < c2 -> h y < h z) \/ (forall y z, c1 < y -> y < z -> z < c2 -> h z < h y)).

(** a sequence of steps, each meeting a condition on the model it is applied to *)
Fixpoint traced (stp : model -> op -> res model) (P : model -> op -> Prop) (M : model) (ops : list op) (M' : model) : Prop :=
  match ops with [] => M = M' | o :: ops' => exists M1, stp M o = Ok M1 /\ P M o /\ traced stp P M1 ops' M' end.
(** the steps an inference may take: no wanted variable goes, conditions are the given ones, and a variable with
    a condition is only eliminated when its equation is a constant *)
Definition legit (wanted : list nat) (cond : list (nat * R)) (M : model) (o : op) : Prop :=
  match o with
  | Exchange a d => True
  | Elim v => ~ In v wanted /\ (In v (map fst cond) -> exists e, In (v, e) (m_eqs M) /\ atoms e = [])
  | Cond v x => ~ In v wanted /\ In (v, x) cond
  | Prop_ v => exists e, In (v, e) (m_eqs M) /\ atoms e = []
  end.
