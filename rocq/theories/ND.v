(** Model: multivariate functions and products of factors (pacal/depvars/nddistr.py).
    Variables are numbers; their order is the order of their symbolic names, which are assumed distinct.
    Integration is an argument [integ f a b]; interpolation of a marginal or conditional density
    (NDInterpolatedDistr, nddistr.py:606-625) is idealised as exact, see Grid.v for the interpolation itself. *)
From Coq Require Import Reals List Bool Arith.
From Verif Require Import Base.
Import List ListNotations.
Open Scope R_scope.

(** ** NDFun (nddistr.py:46-98) *)
(** variables, box, the flag [abs] and the function; [safe] only replaces NaN, which is out of scope *)
Record ndfun := NDF { nd_vars : list nat; nd_a : list R; nd_b : list R; nd_abs : bool; nd_f : list R -> R }.
Definition in_rng (x a b : R) : bool := rle a x && rle x b.
Definition post (F : ndfun) (y : R) : R := if nd_abs F then Rabs y else y.
(** the mask for scalars: the loop combines the coordinates with [or] (nddistr.py:81-83) *)
Fixpoint mask_or (m : bool) (X a b : list R) : bool :=
  match X, a, b with
  | x :: X', p :: a', q :: b' => mask_or (m || in_rng x p q) X' a' b'
  | _, _, _ => m
  end.
(** NDFun.__call__ with scalar arguments (nddistr.py:78-87, 93-98) *)
Definition nd_scalar (F : ndfun) (X : list R) : R :=
  match X, nd_a F, nd_b F with
  | [], _, _ => post F (nd_f F [])
  | x :: X', p :: a', q :: b' => post F (if mask_or (in_rng x p q) X' a' b' then nd_f F X else 0)
  | _, _, _ => 0
  end.
(** boolean indexing of an array: xi[mask] *)
Fixpoint select {A} (mask : list bool) (l : list A) : list A :=
  match mask, l with true :: m, x :: l' => x :: select m l' | false :: m, _ :: l' => select m l' | _, _ => [] end.
(** y[mask] = v for y = zeros *)
Fixpoint scatter (mask : list bool) (v : list R) : list R :=
  match mask with
  | [] => []
  | true :: m => match v with x :: v' => x :: scatter m v' | [] => 0 :: scatter m [] end
  | false :: m => 0 :: scatter m v
  end.
(** the points given by columns of coordinates *)
Definition points (n : nat) (cols : list (list R)) : list (list R) :=
  map (fun k => map (fun c => nth k c 0) cols) (seq 0 n).
(** the mask of one column, and the loop that combines the columns with & (nddistr.py:89-91) *)
Definition mask_col (col : list R) (a b : R) : list bool := map (fun x => in_rng x a b) col.
Definition mask_and (m m' : list bool) : list bool := map (fun p => fst p && snd p) (combine m m').
Fixpoint mask_cols (m : list bool) (cols : list (list R)) (a b : list R) : list bool :=
  match cols, a, b with
  | c :: cols', p :: a', q :: b' => mask_cols (mask_and m (mask_col c p q)) cols' a' b'
  | _, _, _ => m
  end.
(** NDFun.__call__ with array arguments (nddistr.py:88-98); the wrapped function is applied pointwise *)
Definition nd_vector (F : ndfun) (cols : list (list R)) : list R :=
  match cols, nd_a F, nd_b F with
  | c :: cols', p :: a', q :: b' =>
      let mask := mask_cols (mask_col c p q) cols' a' b' in
      let sel := map (select mask) cols in
      map (post F) (scatter mask (map (nd_f F) (points (length (select mask c)) sel)))
  | _, _, _ => []
  end.
(** one element of an array call; factors are always called with arrays during elimination *)
Fixpoint inside (X a b : list R) : bool :=
  match X, a, b with x :: X', p :: a', q :: b' => in_rng x p q && inside X' a' b' | _, _, _ => true end.
Definition nd_point (F : ndfun) (X : list R) : R := post F (if inside X (nd_a F) (nd_b F) then nd_f F X else 0).

(** prepare_var for variables (nddistr.py:99-113): the position of each variable *)
Fixpoint position (v : nat) (vars : list nat) : option nat :=
  match vars with [] => None | w :: vs => if Nat.eqb v w then Some O else option_map S (position v vs) end.
Fixpoint positions (vs vars : list nat) : res (list nat) :=
  match vs with
  | [] => Ok []
  | v :: vs' => match position v vars with
                | Some i => rbind (positions vs' vars) (fun l => Ok (i :: l))
                | None => Err ERuntime
                end
  end.
Fixpoint drop_at {A} (i : nat) (l : list A) : list A :=
  match l, i with [] , _ => [] | _ :: l', O => l' | x :: l', S i' => x :: drop_at i' l' end.
(** the argument vector with x1 put at place i (InterpRunner.integ_f, nddistr.py:228-246) *)
Fixpoint insert_at {A} (i : nat) (x : A) (l : list A) : list A :=
  match i, l with O, _ => x :: l | S i', y :: l' => y :: insert_at i' x l' | S _, [] => [x] end.

(** ** Factors and their elimination *)
Inductive factor := FDens (F : ndfun) | FConst (c : R) | FOne.
Definition f_vars (g : factor) : list nat := match g with FDens F => nd_vars F | _ => [] end.
Definition f_val (g : factor) (env : nat -> R) : R :=
  match g with FDens F => nd_point F (map env (nd_vars F)) | FConst c => c | FOne => 1 end.

Section Elimination.
Variable integ : (R -> R) -> R -> R -> R.   (* integrate_fejer2(f, a, b)[0] *)
Variable lo hi : nat -> R.                  (* range() of a variable *)

(** NDInterpolatedDistr(d, f, Vars): the box is that of the variables (nddistr.py:606-622) *)
Definition interpolated (vars : list nat) (f : list R -> R) : ndfun :=
  NDF vars (map lo vars) (map hi vars) false f.
(** NDFun.eliminate for positions (nddistr.py:127-185), last position first.  The remaining positions are
    passed on unchanged to the function with one dimension less. *)
Fixpoint nd_elim_rev (F : ndfun) (ridx : list nat) : res factor :=
  if negb (forallb (fun i => Nat.ltb i (length (nd_vars F))) ridx) then Err ERuntime else
  match ridx with
  | [] => Ok (FDens F)
  | i :: rest =>
      if Nat.eqb (length (nd_vars F)) 1 then Ok (FConst (integ (fun x => nd_point F [x]) (nth i (nd_a F) 0) (nth i (nd_b F) 0)))
      else let m := interpolated (drop_at i (nd_vars F))
                      (fun X => integ (fun x => nd_point F (insert_at i x X)) (nth i (nd_a F) 0) (nth i (nd_b F) 0)) in
           match rest with [] => Ok (FDens m) | _ => nd_elim_rev m rest end
  end.
Definition nd_elim (F : ndfun) (vs : list nat) : res factor :=
  rbind (positions vs (nd_vars F)) (fun idx => nd_elim_rev F (rev idx)).
(** eliminate of a factor; constants return themselves (nddistr.py:500-501) *)
Definition fac_elim (g : factor) (vs : list nat) : res factor :=
  match g with FDens F => nd_elim F vs | _ => Ok g end.

(** ** Products (nddistr.py:663-797) *)
(** NDProductDistr.optimize (nddistr.py:693-706) *)
Definition optimize (fs : list factor) : list factor :=
  let keep := filter (fun g => match g with FDens _ => true | _ => false end) fs in
  let c := fold_left (fun c g => match g with FConst k => c * k | _ => c end) fs 1 in
  if req c 1 then keep else keep ++ [FConst c].
(** the variables, sorted by name (nddistr.py:669-671) *)
Fixpoint insert_var (v : nat) (l : list nat) : list nat :=
  match l with [] => [v] | w :: l' => if Nat.ltb v w then v :: l else if Nat.eqb v w then l else w :: insert_var v l' end.
Definition prod_vars (fs : list factor) : list nat := fold_left (fun l v => insert_var v l) (flat_map f_vars fs) [].
(** pdf: the product of the factors at the coordinates of their variables (nddistr.py:686-692) *)
Definition prod_val (fs : list factor) (env : nat -> R) : R := fold_left (fun y g => y * f_val g env) fs 1.
(** the box of a product: the intersection of the boxes of the factors (nddistr.py:674-680) *)
Definition limits (sel : ndfun -> list R) (fs : list factor) (v : nat) : list R :=
  flat_map (fun g => match g with FDens F => match position v (nd_vars F) with Some i => [nth i (sel F) 0] | None => [] end | _ => [] end) fs.
Definition lim_max (l : list R) : R := match l with [] => 0 | x :: l' => fold_left Rmax l' x end.
Definition lim_min (l : list R) : R := match l with [] => 0 | x :: l' => fold_left Rmin l' x end.
(** the environment given by an argument vector *)
Fixpoint env_of (vars : list nat) (X : list R) (v : nat) : R :=
  match vars, X with w :: vs, x :: X' => if Nat.eqb v w then x else env_of vs X' v | _, _ => 0 end.
(** a product seen as a single function *)
Definition as_ndfun (fs : list factor) : ndfun :=
  let vars := prod_vars fs in
  NDF vars (map (fun v => lim_max (limits nd_a fs v)) vars) (map (fun v => lim_min (limits nd_b fs v)) vars) false
      (fun X => prod_val (optimize fs) (env_of vars X)).
(** factor_out (nddistr.py:716-729) *)
Definition has_var (v : nat) (g : factor) : bool := existsb (Nat.eqb v) (f_vars g).
(** numpy.argmin: the first position of the least entry *)
Fixpoint argmin_from (best : nat) (m : nat) (i : nat) (l : list nat) : nat :=
  match l with [] => best | x :: l' => if Nat.ltb x m then argmin_from i x (S i) l' else argmin_from best m (S i) l' end.
Definition argmin (l : list nat) : nat := match l with [] => O | x :: l' => argmin_from O x 1 l' end.
(** NDProductDistr.eliminate (nddistr.py:735-767); the empty list of factors stands for NDOneFactor *)
Fixpoint prod_elim_n (n : nat) (fs : list factor) (vs : list nat) : res (list factor) :=
  if negb (forallb (fun v => existsb (Nat.eqb v) (prod_vars fs)) vs) then Err ERuntime else
  match vs, n with
  | [], _ => Ok fs
  | _, O => Err ERuntime
  | _, S n' =>
      let best := argmin (map (fun v => length (filter (has_var v) fs)) vs) in
      let v1 := nth best vs O in
      let kept := filter (fun g => negb (has_var v1 g)) fs in
      let el := filter (has_var v1) fs in
      let ef := match el with
                | [] => Ok []
                | [g] => rbind (fac_elim g [v1]) (fun g' => Ok [g'])
                | _ => rbind (nd_elim (as_ndfun el) [v1]) (fun g' => Ok [g'])
                end in
      rbind ef (fun ef =>
        let vs' := drop_at best vs in
        match optimize (kept ++ ef) with
        | [] => Ok []
        | [g] => rbind (fac_elim g vs') (fun g' => Ok (optimize [g']))
        | new => match vs' with [] => Ok new | _ => prod_elim_n n' new vs' end
        end)
  end.
Definition prod_elim (fs : list factor) (vs : list nat) : res (list factor) := prod_elim_n (length vs) fs vs.

(** NDDistr.condition with normalize=False as called by the product, the values being passed as one list
    (nddistr.py:286-309, 780-781): with two variables the range test compares an array and raises *)
Definition fac_cond (g : factor) (cv : list nat) (cx : list R) : res factor :=
  match g, cv, cx with
  | FDens F, [v], [x] =>
      rbind (positions [v] (nd_vars F)) (fun idx =>
        if rle (lo v) x && rle x (hi v) then
          if Nat.eqb (length (nd_vars F)) 1 then Ok FOne
          else Ok (FDens (interpolated (drop_at (hd O idx) (nd_vars F)) (fun X => nd_point F (insert_at (hd O idx) x X))))
        else Err EAssert)
  | FDens _, _, _ => Err EValue
  | _, _, _ => Ok g
  end.
Fixpoint map_fac (f : factor -> res factor) (l : list factor) : res (list factor) :=
  match l with [] => Ok [] | g :: l' => rbind (f g) (fun g' => rbind (map_fac f l') (fun r => Ok (g' :: r))) end.
(** as_constant (nddistr.py:707-714) *)
Definition as_constant (fs : list factor) : res R :=
  match optimize fs with [] => Ok 1 | [FConst c] => Ok c | _ => Err ERuntime end.
(** NDProductDistr.condition (nddistr.py:768-789) *)
Definition prod_cond (fs : list factor) (vs : list nat) (xs : list R) : res (list factor) :=
  if negb (forallb (fun v => existsb (Nat.eqb v) (prod_vars fs)) vs) then Err ERuntime else
  let shares g := existsb (fun v => has_var v g) vs in
  let kept := filter (fun g => negb (shares g)) fs in
  rbind (map_fac (fun g => let ps := filter (fun p => has_var (fst p) g) (combine vs xs) in fac_cond g (map fst ps) (map snd ps))
                 (filter shares fs)) (fun new =>
  let cfp := optimize (kept ++ new) in
  rbind (prod_elim cfp (prod_vars cfp)) (fun e =>
  rbind (as_constant e) (fun nrm =>
    let nrm := if req nrm 0 then 1 else nrm in
    Ok (optimize (cfp ++ [FConst (1 / nrm)]))))).
End Elimination.
