(** Arithmetic on independent random variables (pacal/indeparith.py). *)
From Coq Require Import Reals Lra List Bool.
From Coquelicot Require Import Coquelicot.
From Verif Require Import Base Bisect Seg Piecewise Integral SegInt.
Import List ListNotations.
Open Scope R_scope.

(** ** Discrete parts *)

(** the dict of convdiracs: insertion-ordered association list with exact keys
    (indeparith.py:1408-1414) *)
Fixpoint dict_add (k v : R) (d : list (R * R)) : list (R * R) :=
  match d with
  | [] => [(k, v)]
  | (k', v') :: d' => if req k k' then (k', v' + v) :: d' else (k', v') :: dict_add k v d'
  end.

(** pairs in the order of the two loops (indeparith.py:1406-1407) *)
Definition dirac_pairs (f g : list segment) : list (segment * segment) :=
  flat_map (fun fi => map (fun gi => (fi, gi)) (getDiracs g)) (getDiracs f).

(** position of an atom as a real number (only applied to atoms) *)
Definition spos (s : segment) : R := real (sa s).

(** convdiracs (indeparith.py:1401-1417) and its copy _conv_diracs (segments.py:2133-2147).
    The operation is a total function; division by an atom at 0 is outside the model. *)
Definition convdiracs_dict (op : R -> R -> R) (f g : list segment) : list (R * R) :=
  fold_left (fun d p => dict_add (op (spos (fst p)) (spos (snd p))) (smass (fst p) * smass (snd p)) d)
            (dirac_pairs f g) [].
Definition convdiracs (eps : R) (op : R -> R -> R) (f g : list segment) : res pwf :=
  addAll eps empty_pwf (map (fun kv => DiracSeg (fst kv) (snd kv)) (convdiracs_dict op f g)).

(** PiecewiseFunction.add_diracs (segments.py:1560-1567) *)
Definition add_dirac1 (eps : R) (p : pwf) (d : segment) : res pwf :=
  match getDirac (segs p) (sa d) with
  | None => addSegment eps p d
  | Some s => Ok (PW (set_dirac (spos d) (smass s + smass d) (segs p)) (brks p))
  end.
Fixpoint add_dirac_loop (eps : R) (p : pwf) (l : list segment) : res pwf :=
  match l with
  | [] => Ok p
  | d :: l' => rbind (add_dirac1 eps p d) (fun p' => add_dirac_loop eps p' l')
  end.
Definition add_diracs (eps : R) (p : pwf) (other : list segment) : res pwf :=
  add_dirac_loop eps p (getDiracs other).

(** _probDiracAtZeroInProd (indeparith.py:1418-1434); None: no atom *)
Definition zero_mass (f g : list segment) : R :=
  fold_left (fun I fi => if req (spos fi) 0
                         then fold_left (fun I s => I + seg_integrate s m_infty p_infty * smass fi) (getSegments g) I
                         else I) (getDiracs f) 0.
Definition probDiracAtZeroInProd (f g : list segment) : option segment :=
  let m := zero_mass f g + zero_mass g f in
  if rlt 0 m then Some (DiracSeg 0 m) else None.

(** the three discrete parts of _probDiracsInMin / _probDiracsInMax (indeparith.py:1436-1472);
    [tail g x] is g.integrate(a = x) for the minimum and g.integrate(b = x) for the maximum *)
Definition extr_own (tail : list segment -> R -> R) (f g : list segment) : list segment :=
  map (fun fi => DiracSeg (spos fi) (smass fi * tail g (spos fi))) (getDiracs f).
Definition extr_both (f g : list segment) : list segment :=
  flat_map (fun gi => match getDirac f (sa gi) with
                      | Some d => [DiracSeg (spos gi) (smass gi * smass d)]
                      | None => []
                      end) (getDiracs g).
Definition probDiracsInExtr (tail : list segment -> R -> R) (eps : R) (f g : list segment) : res pwf :=
  rbind (addAll eps empty_pwf (extr_own tail f g)) (fun fd =>
  rbind (addAll eps empty_pwf (extr_own tail g f)) (fun gd =>
  rbind (addAll eps empty_pwf (extr_both f g)) (fun hd =>
  rbind (add_diracs eps fd (segs gd)) (fun fd' =>
  add_diracs eps fd' (segs hd))))).
Definition probDiracsInMin := probDiracsInExtr (fun g x => pw_integrate g x p_infty).
Definition probDiracsInMax := probDiracsInExtr (fun g x => pw_integrate g m_infty x).

(** ** Pairs of pieces relevant at z *)

Definition seg_pairs (f g : list segment) : list (segment * segment) :=
  flat_map (fun si => map (fun sj => (si, sj)) g) f.

(** _findSegListAdd (indeparith.py:1301-1311) *)
Definition findSegListAdd (f g : list segment) (z : R) : list (segment * segment) :=
  filter (fun p => blt (sa (snd p)) (Rbar_minus z (sa (fst p))) && blt (Rbar_minus z (sb (fst p))) (sb (snd p)))%bool
         (seg_pairs f g).

(** min and max of two ends, as Python's min/max and numpy's minimum/maximum *)
Definition bmax (a b : Rbar) : Rbar := if blt a b then b else a.
Definition bmin (a b : Rbar) : Rbar := if blt b a then b else a.

(** _findSegList (indeparith.py:1313-1328): the corner values without NaN; [op] gives None for NaN.
    min of an empty array raises ValueError. *)
Definition corners (op : Rbar -> Rbar -> option Rbar) (si sj : segment) : list Rbar :=
  flat_map (fun ab => match op (fst ab) (snd ab) with Some r => [r] | None => [] end)
           [(sa si, sa sj); (sb si, sb sj); (sa si, sb sj); (sb si, sa sj)].
Definition pair_relevant (op : Rbar -> Rbar -> option Rbar) (z : R) (si sj : segment) : res bool :=
  match corners op si sj with
  | [] => Err EValue
  | r :: rs => Ok (blt (fold_left bmin rs r) z && blt z (fold_left bmax rs r))%bool
  end.
Fixpoint filter_res {A} (p : A -> res bool) (l : list A) : res (list A) :=
  match l with
  | [] => Ok []
  | x :: l' => rbind (p x) (fun b => rmap (fun r => if b then x :: r else r) (filter_res p l'))
  end.
Definition findSegList (f g : list segment) (z : R) (op : Rbar -> Rbar -> option Rbar) : res (list (segment * segment)) :=
  filter_res (fun p => pair_relevant op z (fst p) (snd p)) (seg_pairs f g).
Definition op_min (a b : Rbar) : option Rbar := Some (bmin a b).
Definition op_max (a b : Rbar) : option Rbar := Some (bmax a b).
(** floating-point product of two ends: NaN for 0 times an infinity *)
Definition op_mul (a b : Rbar) : option Rbar :=
  match a, b with
  | Finite _, Finite _ => Some (Rbar_mult a b)
  | Finite x, _ | _, Finite x => if req x 0 then None else Some (Rbar_mult a b)
  | _, _ => Some (Rbar_mult a b)
  end.

(** _findSegListDiv (indeparith.py:1353-1369), for z <> 0 (for z = 0 and an infinite end the products
    are NaN and the pair is dropped) *)
Definition findSegListDiv (f g : list segment) (z : R) : list (segment * segment) :=
  filter (fun p => let yl := Rbar_mult z (sa (snd p)) in
                   let yr := Rbar_mult z (sb (snd p)) in
                   (blt (sa (fst p)) yl && blt yr (sb (fst p))) || (blt yl (sb (fst p)) && blt (sa (fst p)) yr))%bool
         (seg_pairs f g).

(** ** Values at a point *)

(** _segint (segments.py:2089-2130) with ideal quadrature; only the two-pole case splits the interval *)
Definition midp (L U : Rbar) : Rbar := Finite ((real L + real U) * / 2).
Definition segint (fn : R -> R) (L U : Rbar) (pL pU : bool) : R :=
  if blt U L then 0 else if beq L U then 0
  else if (pL && pU)%bool then Q fn L (midp L U) + Q fn (midp L U) U
  else Q fn L U.

(** _testConvPole (indeparith.py:30-39); [peps] is params.pole_detection.min_distance_from_pole *)
Definition testConvPole (peps : R) (s : segment) (L U : Rbar) : bool * bool :=
  ((hasLeftPole s && rle (Rabs (real (sa s) - real L)) peps)%bool,
   (hasRightPole s && rle (Rabs (real (sb s) - real U)) peps)%bool).

Definition isinf (a : Rbar) : bool := match a with Finite _ => false | _ => true end.
Definition babs (a : Rbar) : Rbar := match a with Finite r => Finite (Rabs r) | _ => p_infty end.

(** fun_c1, fun_c2 (indeparith.py:175-179) *)
Definition fun_c1 (si sj : segment) (x t : R) : R := sf si t * sf sj (x - t).
Definition fun_c2 (si sj : segment) (x t : R) : R := sf si (x - t) * sf sj t.

(** the body of the loop of conv_at_point for two continuous pieces (indeparith.py:277-350);
    safe_a, safe_b differ from a, b by one rounding unit at a pole and are not distinguished *)
Definition conv_cont (peps x : R) (si sj : segment) : res R :=
  let fun1 := fun_c1 si sj x in
  let fun2 := fun_c2 si sj x in
  let Lx := bmax (sa si) (Rbar_minus x (sb sj)) in
  let Ux := bmin (sb si) (Rbar_minus x (sa sj)) in
  let Ly := bmax (sa sj) (Rbar_minus x (sb si)) in
  let Uy := bmin (sb sj) (Rbar_minus x (sa si)) in
  let ia := isinf (sa si) in let ib := isinf (sb si) in
  let ja := isinf (sa sj) in let jb := isinf (sb sj) in
  if (negb ia && negb ja && negb ib && negb jb)%bool then
    let (poleLi, poleRi) := testConvPole peps si Lx Ux in
    let (poleLj, poleRj) := testConvPole peps sj Ly Uy in
    let poleL := (poleLi || poleRj)%bool in
    let poleU := (poleRi || poleLj)%bool in
    if (poleL && poleU)%bool then
      let Mx := midp Lx Ux in
      let My := midp Ly Uy in
      if rlt 0 x then Ok (segint fun1 Lx Mx true false + segint fun2 Ly My true false)
      else Ok (segint fun1 Mx Ux false true + segint fun2 My Uy false true)
    else if (poleLi || poleRi)%bool then Ok (segint fun1 Lx Ux poleLi poleRi)
    else if (poleLj || poleRj)%bool then Ok (segint fun2 Ly Uy poleLj poleRj)
    else Ok (segint fun1 Lx Ux false false)
  else if ((ja || jb) && negb ia && negb ib)%bool then
    let (pL, pR) := testConvPole peps si Lx Ux in Ok (segint fun1 Lx Ux pL pR)
  else if ((ia || ib) && negb ja && negb jb)%bool then
    let (pL, pR) := testConvPole peps sj Ly Uy in Ok (segint fun2 Ly Uy pL pR)
  else if (ia && jb)%bool then
    if blt (babs Ux) (babs Ly) then Ok (Q fun1 m_infty Ux) else Ok (Q fun2 Ly p_infty)
  else if (ib && ja)%bool then
    if blt (babs Lx) (babs Uy) then Ok (Q fun1 Lx p_infty) else Ok (Q fun2 m_infty Uy)
  else if ((ia && ja) || (ib && jb))%bool then
    let Mx := midp Lx Ux in
    let My := midp Ly Uy in
    if (ia && ja)%bool then Ok (Q fun1 Mx Ux + Q fun2 My Uy) else Ok (Q fun1 Lx Mx + Q fun2 Ly My)
  else Err EAssert.

(** one turn of the loop (indeparith.py:274-369) *)
Definition conv_pair (peps x : R) (si sj : segment) : res R :=
  if (isSegment si && isSegment sj)%bool then conv_cont peps x si sj
  else if (isDirac si && isSegment sj)%bool then Ok (smass si * sf sj (x - spos si))
  else if (isSegment si && isDirac sj)%bool then Ok (smass sj * sf si (x - spos sj))
  else Ok 0.

(** for segi, segj in segList: I += i *)
Fixpoint sum_pairs (F : segment -> segment -> res R) (l : list (segment * segment)) (I : R) : res R :=
  match l with
  | [] => Ok I
  | p :: l' => rbind (F (fst p) (snd p)) (fun i => sum_pairs F l' (I + i))
  end.

(** conv_at_point (indeparith.py:267-374) *)
Definition conv_at_point (peps : R) (segList : list (segment * segment)) (x : R) : res R :=
  sum_pairs (conv_pair peps x) segList 0.

(** the two halves of the loop bodies of convminx_at_point (indeparith.py:376-414) and
    convmax_at_point (415-457).  [lo], [hi] are the limits over the other piece.  The Dirac-Dirac
    combination cannot be reached: the piece containing x has different ends. *)
Definition extr_half (lim : segment -> R -> Rbar * Rbar) (x : R) (other own : segment) : R :=
  if (ble (sa own) x && ble x (sb own) && negb (beq (sa own) (sb own)))%bool then
    if (isSegment other && isSegment own)%bool
    then segint (fun t => sf other t * sf own x) (fst (lim other x)) (snd (lim other x)) false false
    else if (isDirac other && isSegment own)%bool then smass other * sf own x
    else if (isSegment other && isDirac own)%bool then smass own * sf other x
    else 0
  else 0.
Definition lim_min (s : segment) (x : R) : Rbar * Rbar := (bmax (sa s) x, sb s).
Definition lim_max (s : segment) (x : R) : Rbar * Rbar := (sa s, bmin (sb s) x).
Definition extr_pair lim (x : R) (si sj : segment) : res R :=
  Ok (extr_half lim x si sj + extr_half lim x sj si).
Definition convmin_at_point (segList : list (segment * segment)) (x : R) : res R :=
  sum_pairs (extr_pair lim_min x) segList 0.
Definition convmax_at_point (segList : list (segment * segment)) (x : R) : res R :=
  sum_pairs (extr_pair lim_max x) segList 0.

(** x / d for an end d, as floating-point division by an end: 0 for an infinite one, an infinity for 0
    (numpy division; x is never 0 where this is used) *)
Definition xdiv (x : R) (d : Rbar) : Rbar :=
  match d with
  | Finite r => if req r 0 then (if rlt 0 x then p_infty else m_infty) else Finite (x / r)
  | _ => Finite 0
  end.
Definition bsign (a : Rbar) : R :=
  match a with
  | Finite r => if rlt 0 r then 1 else if rlt r 0 then -1 else 0
  | p_infty => 1
  | m_infty => -1
  end.

(** convprod_at_point (indeparith.py:459-512) *)
Definition prod_funi (si sj : segment) (x t : R) : R := if req t 0 then 0 else sf si t * sf sj (x / t) * 1 / Rabs t.
Definition prod_funj (si sj : segment) (x t : R) : R := if req t 0 then 0 else sf si (x / t) * sf sj t * 1 / Rabs t.
Definition prod_pair (x : R) (si sj : segment) : res R :=
  if (isSegment si && isSegment sj)%bool then
    let sg := bsign (Rbar_plus (sa si) (sb si)) in
    let cw := sg * bsign (Rbar_plus (sa sj) (sb sj)) in
    let full := segint (prod_funi si sj x) (sa si) (sb si) false false
                + segint (prod_funj si sj x) (sa sj) (sb sj) false false in
    if rlt 0 cw then
      if rlt 0 x then
        Ok (segint (prod_funi si sj x) (bmax (sa si) (xdiv (sg * x) (babs (sb sj))))
                                       (bmin (sb si) (xdiv (sg * x) (babs (sa sj)))) false false)
      else Ok full
    else
      if rlt x 0 then
        Ok (segint (prod_funi si sj x) (bmax (sa si) (xdiv (- sg * x) (babs (sa sj))))
                                       (bmin (sb si) (xdiv (- sg * x) (babs (sb sj)))) false false)
      else Ok full
  else if (isDirac si && isSegment sj)%bool then
    Ok (smass si * sf sj (x / spos si) * 1 / Rabs (spos si) + (if req x 0 then smass si else 0))
  else if (isSegment si && isDirac sj)%bool then
    Ok (smass sj * sf si (x / spos sj) * 1 / Rabs (spos sj) + (if req x 0 then smass sj else 0))
  else Ok 0.
Definition convprod_at_point (segList : list (segment * segment)) (x : R) : res R :=
  sum_pairs (prod_pair x) segList 0.

(** convdiv_at_point (indeparith.py:531-576), integration over the denominator *)
Definition div_fun (si sj : segment) (x t : R) : R := sf si (x * t) * sf sj t * Rabs t.
Definition div_pair (x : R) (si sj : segment) : res R :=
  if (isSegment si && isSegment sj)%bool then
    if req x 0 then Ok (segint (div_fun si sj x) (sa sj) (sb sj) false false)
    else
      let L := Rbar_mult (sa si) (/ x) in
      let U := Rbar_mult (sb si) (/ x) in
      Ok (segint (div_fun si sj x) (bmax (sa sj) (bmin L U)) (bmin (sb sj) (bmax L U)) false false)
  else if (isDirac si && isSegment sj)%bool then
    if req (spos si) 0 then Err EAssert
    else Ok (smass si * sf sj (spos si / x) * Rabs (spos si) / x / x)
  else if (isSegment si && isDirac sj)%bool then
    if req (spos sj) 0 then Err EAssert
    else Ok (smass sj * sf si (spos sj) * Rabs (spos sj))
  else Ok 0.
Definition convdiv_at_point (segList : list (segment * segment)) (x : R) : res R :=
  sum_pairs (div_pair x) segList 0.

(** convdiv2_at_point (indeparith.py:578-622), integration over the numerator, for x <> 0 *)
Definition div2_fun (si sj : segment) (x t : R) : R := sf si t * sf sj (t / x) * Rabs t / x / x.
Definition div2_pair (x : R) (si sj : segment) : res R :=
  if (isSegment si && isSegment sj)%bool then
      let L := Rbar_mult (sa sj) x in
      let U := Rbar_mult (sb sj) x in
      Ok (segint (div2_fun si sj x) (bmax (sa si) (bmin L U)) (bmin (sb si) (bmax L U)) false false)
  else if (isDirac si && isSegment sj)%bool then
    if req (spos si) 0 then Err EAssert
    else Ok (smass si * sf sj (spos si / x) * Rabs (spos si) / x / x)
  else if (isSegment si && isDirac sj)%bool then
    if req (spos sj) 0 then Err EAssert
    else Ok (smass sj * sf si (spos sj) * Rabs (spos sj))
  else Ok 0.
Definition convdiv2_at_point (segList : list (segment * segment)) (x : R) : res R :=
  sum_pairs (div2_pair x) segList 0.

(** the end of convprod (indeparith.py:986-995): the atoms of the product and the mass at zero are
    added to [fg], the continuous part.  The test on seg0 compares its left end with 0.0 exactly. *)
Definition prod_diracs (eps : R) (fg : pwf) (f g : list segment) : res pwf :=
  rbind (convdiracs eps Rmult f g) (fun d =>
  rbind (addAll eps fg (getDiracs (segs d))) (fun fg1 =>
  rbind (findSegment (segs fg1) 0) (fun seg0 =>
  match probDiracAtZeroInProd f g with
  | None => Ok fg1
  | Some d0 =>
      match seg0 with
      | Some (DiracSeg a m) => if req a 0 then Ok (PW (set_dirac 0 (m + smass d0) (segs fg1)) (brks fg1))
                               else addSegment eps fg1 d0
      | _ => addSegment eps fg1 d0
      end
  end))).
