(** Model: graphical models and inference (pacal/depvars/models.py, NDDistrWithVarSubst and varschange of
    pacal/depvars/nddistr.py).  Random variables are numbers, identified with their symbolic names, and are
    ordered by name.  Sympy expressions are trees of sums, products and other real functions; sympy's automatic simplification,
    equation solver, reality test and derivative are arguments.  Printing is left out, and so is the state a
    model is left in when an operation raises. *)
From Coq Require Import Reals List Bool Arith.
From Verif Require Import Base ND.
Import List ListNotations.
Open Scope R_scope.

(** ** Expressions *)
Inductive expr := EVar (v : nat) | ENum (r : R) | EAdd (e1 e2 : expr) | EMul (e1 e2 : expr) | EUn (f : R -> R) (e : expr) | EBin (f : R -> R -> R) (e1 e2 : expr).
(** expr.atoms(Symbol) *)
Fixpoint atoms (e : expr) : list nat :=
  match e with EVar v => [v] | ENum _ => [] | EUn _ e' => atoms e' | EAdd e1 e2 | EMul e1 e2 | EBin _ e1 e2 => atoms e1 ++ atoms e2 end.
Fixpoint eval (e : expr) (env : nat -> R) : R :=
  match e with EVar v => env v | ENum r => r | EAdd e1 e2 => eval e1 env + eval e2 env | EMul e1 e2 => eval e1 env * eval e2 env | EUn f e' => f (eval e' env) | EBin f e1 e2 => f (eval e1 env) (eval e2 env) end.
(** expr.subs(v, e') before simplification *)
Fixpoint esub (v : nat) (s e : expr) : expr :=
  match e with
  | EVar w => if Nat.eqb w v then s else e
  | ENum _ => e
  | EAdd e1 e2 => EAdd (esub v s e1) (esub v s e2)
  | EMul e1 e2 => EMul (esub v s e1) (esub v s e2)
  | EUn f e' => EUn f (esub v s e')
  | EBin f e1 e2 => EBin f (esub v s e1) (esub v s e2)
  end.

Definition mem (v : nat) (l : list nat) : bool := existsb (Nat.eqb v) l.
(** list.remove *)
Fixpoint remove1 (v : nat) (l : list nat) : list nat :=
  match l with [] => [] | w :: l' => if Nat.eqb v w then l' else w :: remove1 v l' end.

(** the fields of Model (models.py:37-55): [m_syms] are the keys of sym_to_rv *)
Record model := Mdl { m_free : list nat; m_dep : list nat; m_all : list nat; m_syms : list nat; m_eqs : list (nat * expr); m_dens : list factor }.

Section Models.
Variable simp : expr -> expr.                        (* what sympy makes of a substituted expression *)
Variable solve : expr -> nat -> nat -> list expr.    (* eq_solve(lhs, dep symbol, free symbol), sympy_utils.py:47-64 *)
Variable real_at : expr -> bool.                     (* im(uj.subs(upper ends of the ranges)) == 0, models.py:147 *)
Variable diff : expr -> nat -> expr.                 (* sympy.diff *)
Variable by_id : list nat -> list nat.               (* a list of variables sorted by id() *)
Variable integ : (R -> R) -> R -> R -> R.
Variable lo hi : nat -> R.

(** dictionary operations on rv_to_equation *)
Fixpoint lookup (v : nat) (l : list (nat * expr)) : option expr :=
  match l with [] => None | (w, e) :: l' => if Nat.eqb v w then Some e else lookup v l' end.
Definition del (v : nat) (l : list (nat * expr)) : list (nat * expr) := filter (fun p => negb (Nat.eqb v (fst p))) l.
(** subst_for_rv_in_children (models.py:181-185) *)
Definition subst_children (v : nat) (s : expr) (l : list (nat * expr)) : list (nat * expr) :=
  map (fun p => if mem v (atoms (snd p)) then (fst p, simp (esub v s (snd p))) else p) l.
(** get_children, get_parents (models.py:85-96) *)
Definition children (M : model) (v : nat) : list nat := map fst (filter (fun p => mem v (atoms (snd p))) (m_eqs M)).
(** atoms is a set *)
Fixpoint set_of (l : list nat) : list nat := match l with [] => [] | v :: l' => if mem v l' then set_of l' else v :: set_of l' end.
Definition parents (M : model) (v : nat) : res (list nat) :=
  match lookup v (m_eqs M) with
  | None => Err EKey
  | Some e => let l := set_of (atoms e) in if forallb (fun w => mem w (m_syms M)) l then Ok l else Err EKey
  end.

(** ** Exchange of a free and a dependent variable *)
(** NDDistrWithVarSubst (nddistr.py:461-478): the new variables sorted by id, the substituted function called with
    the values of its own variables *)
Definition subst_vars (F : ndfun) (v : nat) (sv : list nat) : list nat :=
  by_id (set_of (filter (fun w => negb (Nat.eqb v w)) (nd_vars F) ++ sv)).
Definition with_subst (F : ndfun) (v : nat) (sv : list nat) (s : list R -> R) : res ndfun :=
  match position v (nd_vars F) with
  | None => Err ERuntime
  | Some _ =>
      let vars := subst_vars F v sv in
      Ok (NDF vars (map lo vars) (map hi vars) false
            (fun X => nd_point F (map (fun w => if Nat.eqb w v then s (map (env_of vars X) sv) else env_of vars X w) (nd_vars F))))
  end.
Definition fac_subst (v : nat) (sv : list nat) (s : list R -> R) (g : factor) : res factor :=
  match g with FDens F => rmap FDens (with_subst F v sv s) | _ => Err ERuntime end.
(** NDProductDistr.varschange (nddistr.py:785-797) *)
Definition prod_varschange (fs : list factor) (v : nat) (sv : list nat) (s : list R -> R) (jac : factor) : res (list factor) :=
  if negb (mem v (prod_vars fs)) then Err ERuntime else
  rbind (map_fac (fac_subst v sv s) (filter (has_var v) fs)) (fun new =>
    Ok (optimize (filter (fun g => negb (has_var v g)) fs ++ new ++ [jac]))).
(** sorted(atoms, key=str), and the lambdified expression of those variables (models.py:149-150) *)
Definition sym_list (e : expr) : list nat := fold_left (fun l v => insert_var v l) (atoms e) [].
Definition lambdify (vars : list nat) (e : expr) (X : list R) : R := eval e (env_of vars X).
(** the Jacobian factor (models.py:159-170) *)
Definition jacobian (J : expr) : factor :=
  match sym_list J with
  | [] => FConst (Rabs (eval J (fun _ => 0)))
  | vars => FDens (NDF vars (map lo vars) (map hi vars) true (lambdify vars J))
  end.
(** var_change_helper (models.py:133-179): inverse transforms with their derivatives *)
Definition var_changes (M : model) (a d : nat) (e : expr) : res (list (expr * expr)) :=
  let sols := solve e d a in
  if forallb (fun u => forallb (fun w => mem w (m_syms M)) (atoms u)) sols then
    let kept := filter (fun u => negb (Nat.ltb 1 (length sols)) || real_at u) sols in
    if forallb (fun u => forallb (fun w => mem w (m_syms M)) (atoms (diff u d))) kept then Ok (map (fun u => (u, diff u d)) kept)
    else Err EKey
  else Err EKey.
(** varschange (models.py:98-131) *)
Definition varschange (M : model) (a d : nat) : res model :=
  if negb (mem a (m_free M)) then Err ERuntime else
  if negb (mem d (m_dep M)) then Err ERuntime else
  match lookup d (m_eqs M) with
  | None => Err EKey
  | Some e =>
      if negb (mem a (atoms e)) then Err ERuntime else
      if negb (forallb (fun s => mem s (m_syms M)) (atoms e)) then Err EKey else
      if negb (forallb (fun s => mem s (m_free M)) (atoms e)) then Err ERuntime else
      rbind (var_changes M a d e) (fun vcs =>
      match vcs with
      | [(inv, J)] =>
          let eqs := subst_children a inv (del d (m_eqs M)) in
          rbind (prod_varschange (m_dens M) a (sym_list inv) (lambdify (sym_list inv) inv) (jacobian J)) (fun dens =>
            Ok (Mdl (remove1 a (m_free M) ++ [d]) (remove1 d (m_dep M ++ [a])) (m_all M) (m_syms M) (eqs ++ [(a, inv)]) dens))
      | _ => Err ERuntime
      end)
  end.

(** ** Elimination and conditioning *)
(** eliminate (models.py:187-209) *)
Definition m_elim (M : model) (v : nat) : res model :=
  if mem v (m_free M) then
    if existsb (fun p => mem v (atoms (snd p))) (m_eqs M) then Err ERuntime
    else rbind (prod_elim integ lo hi (m_dens M) [v]) (fun dens =>
           Ok (Mdl (remove1 v (m_free M)) (m_dep M) (remove1 v (m_all M)) (m_syms M) (m_eqs M) dens))
  else if mem v (m_dep M) then
    match lookup v (m_eqs M) with
    | None => Err EKey
    | Some e => Ok (Mdl (m_free M) (remove1 v (m_dep M)) (remove1 v (m_all M)) (m_syms M) (subst_children v e (del v (m_eqs M))) (m_dens M))
    end
  else Err EAssert.
(** condition (models.py:383-392) *)
Definition m_cond (M : model) (v : nat) (x : R) : res model :=
  if negb (mem v (m_free M)) then Err ERuntime else
  rbind (prod_cond integ lo hi (m_dens M) [v] [x]) (fun dens =>
    Ok (Mdl (remove1 v (m_free M)) (m_dep M) (remove1 v (m_all M)) (m_syms M) (subst_children v (ENum x) (m_eqs M)) dens)).
(** the propagation of a wanted constant (models.py:272-274) *)
Definition m_prop (M : model) (v : nat) : res model :=
  match lookup v (m_eqs M) with
  | None => Err EKey
  | Some e => Ok (Mdl (m_free M) (m_dep M) (m_all M) (m_syms M) (subst_children v e (m_eqs M)) (m_dens M))
  end.
(** are_free (models.py:351-354): the loop returns in its first round; None is returned for no variables *)
Definition are_free (M : model) (vs : list nat) : option bool :=
  match vs with [] => None | v :: _ => Some (mem v (m_free M)) end.

(** one step of an inference, and any sequence of steps *)
Inductive op := Exchange (a d : nat) | Elim (v : nat) | Cond (v : nat) (x : R) | Prop_ (v : nat).
Definition step (M : model) (o : op) : res model :=
  match o with Exchange a d => varschange M a d | Elim v => m_elim M v | Cond v x => m_cond M v x | Prop_ v => m_prop M v end.
Fixpoint run (M : model) (ops : list op) : res model :=
  match ops with [] => Ok M | o :: ops' => rbind (step M o) (fun M' => run M' ops') end.

(** ** inference (models.py:247-350) *)
Variable wanted : list nat.
Variable cond : list (nat * R).
Variable id_lt : nat -> nat -> bool.                 (* order of id() *)
Definition cond_of (v : nat) : option R := option_map snd (find (fun p => Nat.eqb v (fst p)) (rev cond)).
Definition in_cond (v : nat) : bool := match cond_of v with Some _ => true | None => false end.
Definition same_set (l l' : list nat) : bool := forallb (fun v => mem v l') l && forallb (fun v => mem v l) l'.
Fixpoint each {A} (f : model -> A -> res model) (M : model) (l : list A) : res model :=
  match l with [] => Ok M | x :: l' => rbind (f M x) (fun M' => each f M' l') end.
(** dangling dependent variables (models.py:257-262) *)
Definition dangling (M : model) : list nat :=
  filter (fun v => negb (mem v wanted) && negb (in_cond v) && Nat.eqb (length (children M v)) 0) (m_dep M).
Fixpoint filter_par (f : nat -> list nat -> bool) (M : model) (l : list nat) : res (list nat) :=
  match l with
  | [] => Ok []
  | v :: l' => rbind (parents M v) (fun ps => rbind (filter_par f M l') (fun r => Ok (if f v ps then v :: r else r)))
  end.
(** constants (models.py:267-274) *)
Definition propagate1 (M : model) (v : nat) : res model := if mem v wanted then m_prop M v else m_elim M v.
(** free variables to remove (models.py:297-307) *)
Definition removable (M : model) : list nat :=
  filter (fun v => negb (mem v wanted) && (in_cond v || Nat.eqb (length (children M v)) 0)) (m_free M).
Definition remove_one (M : model) (v : nat) : res model :=
  match cond_of v with None => m_elim M v | Some x => m_cond M v x end.
(** whether an exchange can be of use (models.py:311-315) *)
Fixpoint all_parents (M : model) (l : list nat) : res (list nat) :=
  match l with [] => Ok [] | v :: l' => rbind (parents M v) (fun ps => rbind (all_parents M l') (fun r => Ok (v :: ps ++ r))) end.
(** the pairs with their keys (models.py:317-331); the least one is taken *)
Definition pair_key (M : model) (np : nat) (fv : nat) : bool * nat := (mem fv wanted, ((np - 1) * (length (children M fv) - 1))%nat).
Fixpoint pairs_of (M : model) (l : list nat) : res (list ((bool * nat) * (nat * nat))) :=
  match l with
  | [] => Ok []
  | dv :: l' => rbind (parents M dv) (fun ps => rbind (pairs_of M l') (fun r =>
                  Ok (map (fun fv => (pair_key M (length ps) fv, (fv, dv))) ps ++ r)))
  end.
Definition key_lt (p q : (bool * nat) * (nat * nat)) : bool :=
  let '((w, n), (a, d)) := p in let '((w', n'), (a', d')) := q in
  if Bool.eqb w w' then
    if Nat.eqb n n' then if Nat.eqb a a' then id_lt d d' else id_lt a a' else Nat.ltb n n'
  else negb w.
Fixpoint least (p : (bool * nat) * (nat * nat)) (l : list ((bool * nat) * (nat * nat))) :=
  match l with [] => p | q :: l' => least (if key_lt q p then q else p) l' end.
(** the inner loop (models.py:277-340); [ex] is exchanged_vars *)
Fixpoint inner (n : nat) (M : model) (ex : list nat) : res model :=
  match n with
  | O => Err EFuel
  | S n' =>
      if same_set (wanted ++ ex) (m_all M) then Ok M else
      match removable M with
      | _ :: _ => rbind (each remove_one M (removable M)) (fun M' => inner n' M' ex)
      | [] =>
          let left := filter (fun v => negb (mem v ex)) (m_dep M) in
          rbind (all_parents M left) (fun anc =>
          if forallb (fun v => mem v wanted) anc then Ok M else
          rbind (filter_par (fun _ ps => forallb (fun w => mem w (m_free M)) ps) M left) (fun exch =>
          rbind (pairs_of M exch) (fun ps =>
          match ps with
          | [] => Ok M
          | p :: ps' =>
              let '(_, (fv, dv)) := least p ps' in
              rbind (varschange M fv dv) (fun M1 =>
                if mem fv wanted then inner n' M1 (fv :: ex)
                else rbind (m_elim M1 fv) (fun M2 => inner n' M2 ex))
          end)))
      end
  end.
(** the outer loop (models.py:255-341); [n] bounds the number of rounds of both loops *)
Fixpoint outer (n : nat) (M : model) : res model :=
  match n with
  | O => Err EFuel
  | S n' =>
      if same_set wanted (m_all M) then Ok M else
      match dangling M with
      | _ :: _ => rbind (each m_elim M (dangling M)) (outer n')
      | [] =>
          rbind (filter_par (fun _ ps => Nat.eqb (length ps) 0) M (m_dep M)) (fun consts =>
          rbind (each propagate1 M consts) (fun M1 =>
          rbind (inner n' M1 []) (outer n')))
      end
  end.
Definition inference (n : nat) (M : model) : res model := outer n M.
End Models.
