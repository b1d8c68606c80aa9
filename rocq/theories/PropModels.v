(** Property theorems (Models). Proofs are in ModelsMain.v and the files it imports. *)
From Coq Require Import Reals Lra Lia List Bool Arith Permutation Sorted.
From Coquelicot Require Import Coquelicot.
From Verif Require Import Base Integral IntegralFacts IntParts ND NDSpec NDFacts NDFacts2 NDFacts3 NDMain Models ModelsSpec ModelsFacts ModelsFacts2 ModelsFacts3 ModelsFacts4.
From Verif Require Import ModelsMain.
Import List ListNotations.
Open Scope R_scope.

(** C48: any sequence of successful steps leaves the model in order, and its variables are those of the beginning
    without the eliminated and conditioned ones, each of which was a variable and is taken away once. *)
Theorem model_order :
  forall simp solve real_at diff by_id integ lo hi, sympy_ok simp solve diff by_id -> homogeneous integ ->
  forall ops M M', wf_model lo hi M -> run simp solve real_at diff by_id integ lo hi M ops = Ok M' ->
  wf_model lo hi M' /\ incl (gone ops) (m_all M) /\ NoDup (gone ops) /\ forall w, In w (m_all M') <-> In w (m_all M) /\ ~ In w (gone ops).
Proof. exact model_order_main. Qed.
Print Assumptions model_order.

(** C48: the free and dependent variables after one step: an exchange swaps the two, the others only take away. *)
Theorem model_step :
  forall simp solve real_at diff by_id integ lo hi, sympy_ok simp solve diff by_id -> homogeneous integ ->
  forall o M M', wf_model lo hi M -> step simp solve real_at diff by_id integ lo hi M o = Ok M' ->
  forall v,
    (In v (m_free M') <-> match o with Exchange a d => (In v (m_free M) /\ v <> a) \/ v = d | Elim w | Cond w _ => In v (m_free M) /\ v <> w | Prop_ _ => In v (m_free M) end) /\
    (In v (m_dep M') <-> match o with Exchange a d => (In v (m_dep M) /\ v <> d) \/ v = a | Elim w | Cond w _ => In v (m_dep M) /\ v <> w | Prop_ _ => In v (m_dep M) end).
Proof. exact model_step_main. Qed.
Print Assumptions model_step.

(** C48: an exchange succeeds exactly when the first variable is free, the second has an equation that mentions it
    and otherwise free variables only, and the solver leaves one solution. *)
Theorem exchange_succeeds :
  forall simp solve real_at diff by_id lo hi, sympy_ok simp solve diff by_id -> forall M a d, wf_model lo hi M ->
  (exists M', varschange simp solve real_at diff by_id lo hi M a d = Ok M') <->
  In a (m_free M) /\ exists e u, In (d, e) (m_eqs M) /\ In a (atoms e) /\ incl (atoms e) (m_free M) /\ sole solve real_at e d a u.
Proof. exact exchange_succeeds_main. Qed.
Print Assumptions exchange_succeeds.

(** C48: an elimination succeeds exactly for a variable of the model that is dependent or that no equation
    mentions. *)
Theorem elim_succeeds :
  forall simp integ lo hi, homogeneous integ -> forall M v, wf_model lo hi M ->
  (exists M', m_elim simp integ lo hi M v = Ok M') <-> In v (m_dep M) \/ In v (m_free M) /\ forall w e, In (w, e) (m_eqs M) -> ~ In v (atoms e).
Proof. exact elim_succeeds_main. Qed.
Print Assumptions elim_succeeds.

(** C48: the solutions of the equations are kept.  The eliminated dependent variables are determined by definitions
    H, which every assignment of the remaining variables can be extended to meet together with the conditions;
    among the assignments that meet the conditions, the solutions of the first model are the solutions of the
    last one that meet the definitions - on any set of assignments on which the equation solver is exact. *)
Theorem model_solutions :
  forall simp solve real_at diff by_id integ lo hi, sympy_ok simp solve diff by_id -> homogeneous integ ->
  forall ops M M', wf_model lo hi M -> run simp solve real_at diff by_id integ lo hi M ops = Ok M' ->
  exists H, (forall v e, In (v, e) H -> In v (gone ops) /\ incl (atoms e) (m_all M)) /\
    (forall env, exists env', same_on (m_all M') env env' /\ agrees ops env' /\ sol H env') /\
    forall D, exact_on D solve real_at -> forall env, D env -> agrees ops env -> (sol (m_eqs M) env <-> sol (m_eqs M') env /\ sol H env).
Proof. exact model_solutions_main. Qed.
Print Assumptions model_solutions.

(** C48: hence, with a solver that is exact everywhere, the last model has exactly the solutions of the first one
    that meet the conditions, restricted to the remaining variables. *)
Theorem model_projection :
  forall simp solve real_at diff by_id integ lo hi, sympy_ok simp solve diff by_id -> homogeneous integ -> exact_on (fun _ => True) solve real_at ->
  forall ops M M', wf_model lo hi M -> run simp solve real_at diff by_id integ lo hi M ops = Ok M' ->
  forall env, sol (m_eqs M') env <-> exists env', same_on (m_all M') env env' /\ agrees ops env' /\ sol (m_eqs M) env'.
Proof. exact model_projection_main. Qed.
Print Assumptions model_projection.

(** C48: the density after an exchange is the density at the inverse transform times the absolute derivative of the
    inverse transform, where the variables of that transform are in their ranges, and zero elsewhere. *)
Theorem exchange_density :
  forall simp solve real_at diff by_id lo hi, sympy_ok simp solve diff by_id ->
  forall M a d M', wf_model lo hi M -> varschange simp solve real_at diff by_id lo hi M a d = Ok M' ->
  exists e u, In (d, e) (m_eqs M) /\ In (a, u) (m_eqs M') /\ sole solve real_at e d a u /\ incl (atoms e) (m_free M) /\ incl (atoms u) (m_free M') /\
    forall env, ((forall w, In w (atoms u) -> lo w <= env w <= hi w) -> density (m_dens M') env = density (m_dens M) (upd env a (eval u env)) * Rabs (eval (diff u d) env)) /\
                (forall w, In w (atoms u) -> ~ (lo w <= env w <= hi w) -> density (m_dens M') env = 0).
Proof. exact exchange_density_main. Qed.
Print Assumptions exchange_density.

(** C48: an exchange keeps the law of the variables: integrating any function phi of all variables against the new
    density over the new free variable gives the same as against the old density over the old one, the other
    free variables being fixed within their ranges - for a monotone transform with a continuous derivative whose
    image lies in the range of the new variable. *)
Theorem exchange_law :
  forall simp solve real_at diff by_id lo hi, sympy_ok simp solve diff by_id -> forall D M a d M',
  wf_model lo hi M -> exact_on D solve real_at -> varschange simp solve real_at diff by_id lo hi M a d = Ok M' ->
  exists e u, In (d, e) (m_eqs M) /\ In (a, u) (m_eqs M') /\
    forall env (phi : (nat -> R) -> R) c1 c2,
    let h := fun y => eval u (upd env d y) in
    let f := fun x => density (m_dens M) (upd env a x) * phi (upd (upd env a x) d (eval e (upd env a x))) in
    (forall E E' : nat -> R, (forall w, E w = E' w) -> phi E = phi E') ->
    (forall w, In w (atoms u) -> w <> d -> lo w <= env w <= hi w) -> lo d <= c1 -> c2 <= hi d -> mono_onto h c1 c2 (lo a) (hi a) ->
    (forall y, c1 < y < c2 -> D (upd (upd env d y) a (h y))) ->
    (forall y, lo d <= y <= hi d -> y < c1 \/ c2 < y -> ~ (lo a <= h y <= hi a)) ->
    (forall y, c1 < y < c2 -> is_derive h y (eval (diff u d) (upd env d y)) /\ continuous (fun y => eval (diff u d) (upd env d y)) y) ->
    integrable f (lo a) (hi a) -> (forall x, lo a < x < hi a -> continuous f x) ->
    has_int (fun y => density (m_dens M') (upd env d y) * phi (upd (upd env d y) a (h y))) (lo d) (hi d) (Q f (lo a) (hi a)).
Proof. exact exchange_law_main. Qed.
Print Assumptions exchange_law.

(** C48: a finished inference has exactly the wanted variables, and it is reached by steps of which none takes away a
    wanted variable, conditions are the given ones, and a variable with a condition is eliminated only if its
    equation has become a constant. *)
Theorem inference_result :
  forall simp solve real_at diff by_id integ lo hi wanted cond id_lt, sympy_ok simp solve diff by_id -> homogeneous integ ->
  forall n M M', wf_model lo hi M -> inference simp solve real_at diff by_id integ lo hi wanted cond id_lt n M = Ok M' ->
  wf_model lo hi M' /\ (forall v, In v (m_all M') <-> In v wanted) /\
  exists ops, traced (step simp solve real_at diff by_id integ lo hi) (legit wanted cond) M ops M' /\ run simp solve real_at diff by_id integ lo hi M ops = Ok M'.
Proof. exact inference_result_main. Qed.
Print Assumptions inference_result.

(** Inference for a variable that is not in the model never ends: here for a model without variables. *)
Theorem inference_unknown_refuted :
  forall simp solve real_at diff by_id integ lo hi id_lt v, wf_model lo hi (Mdl [] [] [] [] [] []) /\
  forall n, inference simp solve real_at diff by_id integ lo hi [v] [] id_lt n (Mdl [] [] [] [] [] []) = Err EFuel.
Proof. exact inference_unknown_refuted_main. Qed.
Print Assumptions inference_unknown_refuted.

(** are_free looks at the first variable only: it calls a list with a dependent variable free. *)
Theorem are_free_refuted :
  exists M vs v, are_free M vs = Some true /\ In v vs /\ ~ In v (m_free M) /\ In v (m_dep M).
Proof. exact are_free_refuted_main. Qed.
Print Assumptions are_free_refuted.
