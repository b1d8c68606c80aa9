(** Model: random-variable objects (pacal/rv.py) and their distribution subclasses (the class part of
    pacal/distr.py): operators, dependence check, ancestors, ranges, sampling, and the construction of graphical
    models from variables (Model.__init__ of pacal/depvars/models.py).
    Objects live in a heap and are identified by their position in it, which stands for id() and for the default
    symbolic name.  A sample is one real number (numpy works elementwise); a value that would be nan or infinite
    is an error.  Range ends are extended reals, None standing for nan.  Names for printing, plots, and the numeric
    side of distributions (other modules) are left out. *)
From Coq Require Import Reals List Bool Arith.
From Coquelicot Require Import Coquelicot.
From Verif Require Import Base ND Models.
Import List ListNotations.
Open Scope R_scope.

(** ** Objects *)
Inductive uop := UExp | ULog | UAtan | UTanh | UInv | USquare | UAbs.
Inductive bop := OSum | OSub | OMul | ODiv | OMin | OMax.
(** base variables (also those whose samples ignore their parents: sign, conditioned variables), ConstDistr, and
    the operation classes of rv.py:327-553 and distr.py:593-1186 *)
Inductive kind := KBase | KConst (c : R) | KShift (shift scale : R) (d : nat) | KUn (f : uop) (d : nat) | KBin (o : bop) (d1 d2 : nat).
Definition args (k : kind) : list nat :=
  match k with KBase | KConst _ => [] | KShift _ _ d | KUn _ d => [d] | KBin _ d1 d2 => [d1; d2] end.
Record cell := Cell {
  c_kind : kind;
  c_par : list nat;                         (* parents *)
  c_indep : bool;
  c_distr : bool;                           (* an instance of Distr, not only of RV *)
  c_a : option Rbar; c_b : option Rbar;     (* the attributes a, b *)
  c_range : option (option Rbar * option Rbar);   (* the result of range() where a class overrides it *)
  c_sym : expr; c_name : nat }.
Definition heap := list cell.
Definition get (h : heap) (i : nat) : res cell := match nth_error h i with Some c => Ok c | None => Err EIndex end.

(** ** Elementary operations *)
Definition un_val (f : uop) (x : R) : res R :=
  match f with
  | UExp => Ok (exp x)
  | ULog => if rlt 0 x then Ok (ln x) else Err EValue
  | UAtan => Ok (atan x)
  | UTanh => Ok (tanh x)
  | UInv => if req x 0 then Err EZeroDiv else Ok (1 / x)
  | USquare => Ok (x * x)
  | UAbs => Ok (Rabs x)
  end.
Definition bin_val (o : bop) (x y : R) : res R :=
  match o with
  | OSum => Ok (x + y)
  | OSub => Ok (x - y)
  | OMul => Ok (x * y)
  | ODiv => if req y 0 then Err EZeroDiv else Ok (x / y)
  | OMin => Ok (Rmin x y)
  | OMax => Ok (Rmax x y)
  end.
(** symbolic expressions: the real functions sympy's stand for *)
Definition un_sym (f : uop) (e : expr) : expr :=
  match f with
  | UExp => EUn exp e | ULog => EUn ln e | UAtan => EUn atan e | UTanh => EUn tanh e | UInv => EUn (fun x => 1 / x) e
  | USquare => EUn (fun x => x * x) e | UAbs => EUn Rabs e
  end.
Definition bin_sym (o : bop) (e1 e2 : expr) : expr :=
  match o with
  | OSum => EAdd e1 e2 | OSub => EAdd e1 (EMul (ENum (Ropp 1)) e2) | OMul => EMul e1 e2 | ODiv => EBin Rdiv e1 e2
  | OMin => EBin Rmin e1 e2 | OMax => EBin Rmax e1 e2
  end.

(** ** Ranges *)
(** float arithmetic on range ends; a zero divisor counts as +0.0 *)
Definition xmul (x y : Rbar) : option Rbar :=
  match x, y with
  | Finite u, Finite v => Some (Finite (u * v))
  | Finite u, _ => if req u 0 then None else Some (Rbar_mult x y)
  | _, Finite v => if req v 0 then None else Some (Rbar_mult x y)
  | _, _ => Some (Rbar_mult x y)
  end.
Definition xadd (x y : Rbar) : option Rbar :=
  match x, y with
  | p_infty, m_infty | m_infty, p_infty => None
  | _, _ => Some (Rbar_plus x y)
  end.
Definition xdiv (x y : Rbar) : option Rbar :=
  match y with
  | Finite v => if req v 0 then (if blt 0 x then Some p_infty else if blt x 0 then Some m_infty else None) else xmul x (Finite (/ v))
  | _ => match x with Finite _ => Some (Finite 0) | _ => None end
  end.
Definition lift2 (f : Rbar -> Rbar -> option Rbar) (x y : option Rbar) : option Rbar :=
  match x, y with Some u, Some v => f u v | _, _ => None end.
Definition xopp (x : option Rbar) : option Rbar := option_map Rbar_opp x.
(** Python's min and max of two: a nan in second place is ignored, in first place kept *)
Definition xmin (x y : option Rbar) : option Rbar := match x, y with Some u, Some v => if blt v u then y else x | _, _ => x end.
Definition xmax (x y : option Rbar) : option Rbar := match x, y with Some u, Some v => if blt u v then y else x | _, _ => x end.
Definition range_of (c : cell) : option Rbar * option Rbar := match c_range c with Some r => r | None => (c_a c, c_b c) end.
(** min and max of unique(outer(...)): nans are sorted to the end and never chosen unless there is nothing else *)
Definition known (l : list (option Rbar)) : list Rbar := flat_map (fun o => match o with Some x => [x] | None => [] end) l.
Definition least_of (l : list Rbar) : option Rbar := match l with [] => None | x :: l' => Some (fold_left (fun m y => if blt y m then y else m) l' x) end.
Definition most_of (l : list Rbar) : option Rbar := match l with [] => None | x :: l' => Some (fold_left (fun m y => if blt m y then y else m) l' x) end.
Definition outer_of (f : Rbar -> Rbar -> option Rbar) (l1 l2 : list (option Rbar)) : list (option Rbar) :=
  flat_map (fun x => map (fun y => lift2 f x y) l2) l1.
(** ShiftedScaledRV (rv.py:333-336): from the attributes a and b, not from range() *)
Definition shift_range (c : cell) (shift scale : R) : option Rbar * option Rbar :=
  let a := lift2 xadd (lift2 xmul (c_a c) (Some (Finite scale))) (Some (Finite shift)) in
  let b := lift2 xadd (lift2 xmul (c_b c) (Some (Finite scale))) (Some (Finite shift)) in
  (xmin a b, xmax a b).
(** SumRV, SubRV, MulRV, DivRV (rv.py:446-507); MinRV and MaxRV keep the defaults of RV.__init__ *)
Definition with_zero (r : option Rbar * option Rbar) : list (option Rbar) :=
  match lift2 xmul (fst r) (snd r) with
  | Some p => if blt p 0 then [fst r; snd r; Some (Finite 0)] else [fst r; snd r]
  | None => [fst r; snd r]
  end.
Definition bin_range (o : bop) (r1 r2 : option Rbar * option Rbar) : option Rbar * option Rbar :=
  match o with
  | OSum => (lift2 xadd (fst r1) (fst r2), lift2 xadd (snd r1) (snd r2))
  | OSub => (lift2 xadd (fst r1) (xopp (fst r2)), lift2 xadd (snd r1) (xopp (snd r2)))
  | OMul => let l := known (outer_of xmul [fst r1; snd r1] [fst r2; snd r2]) in (least_of l, most_of l)
  | ODiv => let l := known (outer_of xdiv (with_zero r1) (with_zero r2)) in (least_of l, most_of l)
  | OMin | OMax => (Some (Finite 0), Some (Finite 1))
  end.

(** ** Construction *)
Definition add_cell (h : heap) (c : cell) : heap * nat := (h ++ [c], length h).
(** ShiftedScaledRV / ShiftedScaledDistr (rv.py:327-337, distr.py:593-601); independence is always the default *)
Definition new_shift (h : heap) (d : nat) (shift scale : R) : res (heap * nat) :=
  rbind (get h d) (fun c =>
  if req scale 0 then Err EAssert else
  let r := shift_range c shift scale in
  Ok (add_cell h (Cell (KShift shift scale d) [d] true (c_distr c) (fst r) (snd r) None
                       (EAdd (EMul (EVar (c_name c)) (ENum scale)) (ENum shift)) (length h)))).
(** function classes (rv.py:357-400, 425-437): range attributes stay at the defaults 0 and 1 *)
Definition new_un (h : heap) (f : uop) (d : nat) : res (heap * nat) :=
  rbind (get h d) (fun c =>
  Ok (add_cell h (Cell (KUn f d) [d] true (c_distr c) (Some (Finite 0)) (Some (Finite 1)) None (un_sym f (EVar (c_name c))) (length h)))).
(** binary classes; [dist] tells the Distr subclass from the RV class *)
Definition new_bin (h : heap) (o : bop) (d1 d2 : nat) (dist : bool) : res (heap * nat) :=
  rbind (get h d1) (fun c1 => rbind (get h d2) (fun c2 =>
  let r := bin_range o (range_of c1) (range_of c2) in
  Ok (add_cell h (Cell (KBin o d1 d2) [d1; d2] true dist (fst r) (snd r) None
                       (bin_sym o (EVar (c_name c1)) (EVar (c_name c2))) (length h))))).
(** ConstDistr (distr.py:1225-1228) *)
Definition new_const (h : heap) (r : R) : heap * nat :=
  add_cell h (Cell (KConst r) [] true true (Some (Finite 0)) (Some (Finite 1)) None (EVar (length h)) (length h)).

Section Ops.
(** is_nonneg of a distribution that does not override it: from its piecewise density (distr.py:195-197) *)
Variable nonneg : heap -> nat -> bool.
(** is_nonneg: overridden by ExpDistr and ExpRV, missing in RV (rv.py:361, distr.py:195, 623) *)
Definition is_nonneg (h : heap) (d : nat) : res bool :=
  rbind (get h d) (fun c =>
  match c_kind c with
  | KUn UExp _ => Ok true
  | _ => if c_distr c then Ok (nonneg h d) else Err EType
  end).
(** LogRV, LogDistr (rv.py:363-368, distr.py:632-637) *)
Definition new_log (h : heap) (d : nat) : res (heap * nat) :=
  rbind (is_nonneg h d) (fun b => if b then new_un h ULog d else Err EValue).

(** results of operators: numbers or objects *)
Inductive pyval := VNum (r : R) | VRV (i : nat).
Definition rv_of (r : res (heap * nat)) : res (heap * pyval) := rmap (fun p => (fst p, VRV (snd p))) r.

(** operators with a number (rv.py:182-290, distr.py:410-517); [X] is the variable, [r] the number *)
Definition neg_ (h : heap) (X : nat) := rv_of (new_shift h X 0 (Ropp 1)).
Definition add_num (h : heap) (X : nat) (r : R) := rv_of (new_shift h X r 1).
Definition radd_num (h : heap) (X : nat) (r : R) := rv_of (new_shift h X r 1).
Definition sub_num (h : heap) (X : nat) (r : R) := rv_of (new_shift h X (- r) 1).
Definition rsub_num (h : heap) (X : nat) (r : R) := rv_of (new_shift h X r (Ropp 1)).
Definition mul_num (h : heap) (X : nat) (r : R) : res (heap * pyval) :=
  if req r 0 then Ok (h, VNum 0) else rv_of (new_shift h X 0 r).
(** Distr.__rmul__ has one more special case than RV.__rmul__ *)
Definition rmul_num (h : heap) (X : nat) (r : R) : res (heap * pyval) :=
  rbind (get h X) (fun c =>
  if req r 0 then Ok (h, VNum 0) else
  if c_distr c && req r 1 then Ok (h, VRV X) else rv_of (new_shift h X 0 r)).
Definition div_num (h : heap) (X : nat) (r : R) : res (heap * pyval) :=
  rbind (get h X) (fun c =>
  if c_distr c && req r 1 then Ok (h, VRV X) else
  if req r 0 then Err EZeroDiv else rv_of (new_shift h X 0 (1 / r))).
Definition rdiv_num (h : heap) (X : nat) (r : R) : res (heap * pyval) :=
  if req r 0 then Ok (h, VNum 0) else
  rbind (new_un h UInv X) (fun p => rmul_num (fst p) (snd p) r).
Definition pow_num (h : heap) (X : nat) (r : R) : res (heap * pyval) :=
  if req r 0 then Ok (h, VNum 1) else
  if req r 1 then Ok (h, VRV X) else
  if req r (Ropp 1) then rv_of (new_un h UInv X) else
  if req r 2 then rv_of (new_un h USquare X) else
  rbind (new_log h X) (fun p => rbind (new_shift (fst p) (snd p) 0 r) (fun q => rv_of (new_un (fst q) UExp (snd q)))).
Definition rpow_num (h : heap) (X : nat) (r : R) : res (heap * pyval) :=
  if req r 0 then Ok (h, VNum 0) else
  if req r 1 then Ok (h, VNum 1) else
  if rlt r 0 then Err EValue else
  rbind (new_shift h X 0 (ln r)) (fun p => rv_of (new_un (fst p) UExp (snd p))).
(** abs: AbsRV misspells getSymname (rv.py:413) *)
Definition abs_ (h : heap) (X : nat) : res (heap * pyval) :=
  rbind (get h X) (fun c => if c_distr c then rv_of (new_un h UAbs X) else Err EType).
(** operators between two variables: a Distr accepts a Distr only, an RV any variable *)
Definition bin_rv (o : bop) (h : heap) (X Y : nat) : res (heap * pyval) :=
  rbind (get h X) (fun c1 => rbind (get h Y) (fun c2 =>
  if c_distr c1 then (if c_distr c2 then rv_of (new_bin h o X Y true) else Err EType)
  else rv_of (new_bin h o X Y false))).
Definition pow_rv (h : heap) (X Y : nat) : res (heap * pyval) :=
  rbind (get h X) (fun c1 => rbind (get h Y) (fun c2 =>
  if c_distr c1 && negb (c_distr c2) then Err EType else
  rbind (new_log h X) (fun p => rbind (new_bin (fst p) OMul (snd p) Y (c_distr c1)) (fun q => rv_of (new_un (fst q) UExp (snd q)))))).
(** min and max of distr.py (1188-1223); [o] is OMin or OMax *)
Definition minmax (o : bop) (h : heap) (x y : pyval) : res (heap * pyval) :=
  match x, y with
  | VNum u, VNum v => rmap (fun z => (h, VNum z)) (bin_val o u v)
  | VRV X, VNum v => rbind (get h X) (fun c => if c_distr c then let (h', Y) := new_const h v in rv_of (new_bin h' o X Y true) else Err EType)
  | VNum u, VRV Y => rbind (get h Y) (fun c => if c_distr c then let (h', X) := new_const h u in rv_of (new_bin h' o X Y true) else Err EType)
  | VRV X, VRV Y => rbind (get h X) (fun c1 => rbind (get h Y) (fun c2 =>
      if c_distr c1 && c_distr c2 then rv_of (new_bin h o X Y true)
      else if c_distr c1 || c_distr c2 then Err EType else rv_of (new_bin h o X Y false)))
  end.
End Ops.

(** ** Ancestors and the dependence check *)
Definition add1 (i : nat) (s : list nat) : list nat := if mem i s then s else s ++ [i].
(** getAncestorIDs (rv.py:49-57); the set is shared by the recursive calls *)
Fixpoint ancs (fuel : nat) (h : heap) (i : nat) (anc : list nat) : res (list nat) :=
  match fuel with
  | O => Err EFuel
  | S n => rbind (get h i) (fun c =>
      rbind (fold_left (fun acc p => rbind acc (fun s => if mem p s then Ok s else ancs n h p s)) (c_par c) (Ok anc)) (fun s => Ok (add1 i s)))
  end.
Definition getAncestorIDs (h : heap) (i : nat) : res (list nat) := ancs (S (length h)) h i [].
(** the check of Distr.__init__ (distr.py:67-76): true if it warns *)
Fixpoint warns (h : heap) (anc ps : list nat) : res bool :=
  match ps with
  | [] => Ok false
  | p :: ps' => rbind (getAncestorIDs h p) (fun panc =>
      if existsb (fun a => mem a anc) panc then Ok true else warns h (anc ++ panc) ps')
  end.
(** getParentsFree, getParentsDep, getParentsAll (rv.py:161-180) *)
Fixpoint par_free (fuel : nat) (h : heap) (i : nat) : res (list nat) :=
  match fuel with
  | O => Err EFuel
  | S n => rbind (get h i) (fun c =>
      fold_left (fun acc p => rbind acc (fun s => rmap (fun t => s ++ t) (par_free n h p))) (c_par c) (Ok (match c_par c with [] => [i] | _ => [] end)))
  end.
Fixpoint par_dep (fuel : nat) (h : heap) (i : nat) : res (list nat) :=
  match fuel with
  | O => Err EFuel
  | S n => rbind (get h i) (fun c =>
      fold_left (fun acc p => rbind acc (fun s => rmap (fun t => s ++ t) (par_dep n h p))) (c_par c) (Ok (match c_par c with [] => [] | _ => [i] end)))
  end.
Definition getParentsFree (h : heap) (i : nat) := par_free (S (length h)) h i.
Definition getParentsDep (h : heap) (i : nat) := par_dep (S (length h)) h i.
Definition getParentsAll (h : heap) (i : nat) : res (list nat) :=
  rbind (get h i) (fun c => fold_left (fun acc p => rbind acc (fun s => rmap (fun t => s ++ t) (getParentsDep h p))) (c_par c) (Ok [i])).
(** make_free and setSym (rv.py:70-82) *)
Fixpoint set_cell (h : heap) (i : nat) (f : cell -> cell) : heap :=
  match h, i with
  | [], _ => []
  | c :: h', O => f c :: h'
  | c :: h', S j => c :: set_cell h' j f
  end.
Definition make_free (h : heap) (i : nat) : heap :=
  set_cell h i (fun c => Cell (c_kind c) [] (c_indep c) (c_distr c) (c_a c) (c_b c) (c_range c) (EVar (c_name c)) (c_name c)).
Definition setSym (h : heap) (i v : nat) : heap :=
  set_cell h i (fun c => Cell (c_kind c) (c_par c) (c_indep c) (c_distr c) (c_a c) (c_b c) (c_range c) (c_sym c) v).

(** ** Sampling *)
Section Rand.
Variable draw : nat -> nat -> R.   (* the k-th call of a random generator, for base variable i *)
Definition cache := list (nat * R).
Fixpoint cached (i : nat) (l : cache) : option R := match l with [] => None | (j, x) :: l' => if Nat.eqb i j then Some x else cached i l' end.
(** Distr.rand and OpDistr.rand (distr.py:306-317, 551-558): the result, the cache and the number of generator
    calls made; a variable treated as independent ignores the cache and passes none on *)
Fixpoint rand (fuel : nat) (h : heap) (i : nat) (ca : option cache) (k : nat) : res (R * option cache * nat) :=
  match fuel with
  | O => Err EFuel
  | S n => rbind (get h i) (fun c =>
      let op := fun ca k =>
        match c_kind c with
        | KBase => Ok (draw k i, ca, S k)
        | KConst r => Ok (r, ca, k)
        | KShift s m d => rmap (fun t => (m * fst (fst t) + s, snd (fst t), snd t)) (rand n h d ca k)
        | KUn f d => rbind (rand n h d ca k) (fun t => rmap (fun x => (x, snd (fst t), snd t)) (un_val f (fst (fst t))))
        | KBin o d1 d2 => rbind (rand n h d1 ca k) (fun t => rbind (rand n h d2 (snd (fst t)) (snd t)) (fun u =>
            rmap (fun x => (x, snd (fst u), snd u)) (bin_val o (fst (fst t)) (fst (fst u)))))
        end in
      if c_indep c then rmap (fun t => (fst (fst t), ca, snd t)) (op None k)
      else
        let ca' := match ca with Some l => l | None => [] end in
        let out := fun l => match ca with Some _ => Some l | None => None end in
        match cached i ca' with
        | Some x => Ok (x, out ca', k)
        | None => rmap (fun t => let l := match snd (fst t) with Some l => l | None => [] end in
                                 (fst (fst t), out ((i, fst (fst t)) :: l), snd t)) (op (Some ca') k)
        end)
  end.
Definition sample (h : heap) (i : nat) (ca : option cache) (k : nat) := rand (S (length h)) h i ca k.
End Rand.

(** ** Model.__init__ (models.py:37-55): the free variables of the density, the given variables with all their
    dependent ancestors, and the equation of each *)
Fixpoint map_dep (h : heap) (l : list nat) : res (list nat) :=
  match l with [] => Ok [] | i :: l' => rbind (getParentsDep h i) (fun s => rmap (fun t => s ++ t) (map_dep h l')) end.
Fixpoint cells (h : heap) (l : list nat) : res (list cell) :=
  match l with [] => Ok [] | i :: l' => rbind (get h i) (fun c => rmap (fun t => c :: t) (cells h l')) end.
Definition sort_vars (l : list nat) : list nat := fold_left (fun s v => insert_var v s) l [].
(** objects are represented by their symbolic names, as in [model]; [fac] is the density, over named variables *)
Definition model_init (h : heap) (fac : list factor) (rvs : list nat) : res model :=
  rbind (map_dep h rvs) (fun dep =>
  rbind (cells h (set_of (rvs ++ dep))) (fun cs =>
  let free := prod_vars fac in
  let deps := sort_vars (map c_name cs) in
  let all := sort_vars (free ++ map c_name cs) in
  Ok (Mdl free deps all all (map (fun c => (c_name c, c_sym c)) cs) fac))).
