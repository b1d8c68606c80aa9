(** The constructor of a piecewise function from one function and break points (pacal/segments.py:998-1060)
    and the named continuous distributions of pacal/standard_distr.py: the checks of __init__, the
    densities, the pieces made by init_piecewise_pdf, range and the hand-written samplers. *)
From Coq Require Import Reals List Bool Arith.
From Coquelicot Require Import Coquelicot.
From Verif Require Import Base Seg Piecewise.
Import List ListNotations.
Open Scope R_scope.

(** One finite piece chosen from the flags lpoles[i], rpoles[i], rpoles[i+1]
    (segments.py:1020-1027, 1032-1039, 1044-1051).  A Segment object with an infinite end has no
    counterpart here. *)
Definition mk_piece (f : R -> R) (a b : Rbar) (lpi rpi rpj : bool) : res segment :=
  match a, b with
  | Finite a, Finite b =>
      if (negb lpi && negb rpj)%bool then Ok (Seg a b f)
      else if (lpi && negb rpj)%bool then Ok (PoleSeg a b f true)
      else if (negb rpi && rpj)%bool then Ok (PoleSeg a b f false)
      else Err EAssert
  | _, _ => Err EMInfAtom
  end.

(** list indexing *)
Definition at_ix {A} (l : list A) (i : nat) : res A := match nth_error l i with Some x => Ok x | None => Err EIndex end.

(** self.addSegment(<piece between breaks[i] and breaks[j]>) with the flags at k and k+1; breaks is the
    attribute, which addSegment itself replaces by its sorted duplicate-free version (segments.py:1100) *)
Definition add_piece (eps : R) (f : R -> R) (lp rp : list bool) (p : pwf) (i j k : nat) : res pwf :=
  rbind (at_ix (brks p) i) (fun a => rbind (at_ix (brks p) j) (fun b =>
  rbind (at_ix lp k) (fun lpi => rbind (at_ix rp k) (fun rpi => rbind (at_ix rp (S k)) (fun rpj =>
  rbind (mk_piece f a b lpi rpi rpj) (fun s => addSegment eps p s)))))).

(** the loop over the inner pieces (segments.py:1030-1039) *)
Fixpoint add_inner (eps : R) (f : R -> R) (lp rp : list bool) (p : pwf) (is : list nat) : res pwf :=
  match is with
  | [] => Ok p
  | i :: is' => rbind (add_piece eps f lp rp p i (S i) i) (fun p' => add_inner eps f lp rp p' is')
  end.

(** the first piece (segments.py:1017-1027) *)
Definition add_first (eps : R) (f : R -> R) (lp rp : list bool) (p : pwf) : res pwf :=
  rbind (at_ix (brks p) 0) (fun a =>
  match a with
  | Finite _ => add_piece eps f lp rp p 0 1 0
  | _ => rbind (at_ix (brks p) 1) (fun b =>
         match b with Finite b => addSegment eps p (MInfSeg b f) | _ => Err EMInfAtom end)
  end).

(** the last piece, with the indices -1 and -2 (segments.py:1040-1051) *)
Definition add_last (eps : R) (f : R -> R) (lp rp : list bool) (p : pwf) : res pwf :=
  let m := length (brks p) in let n := length lp in
  rbind (at_ix (brks p) (m - 1)) (fun b =>
  match b with
  | Finite _ => add_piece eps f lp rp p (m - 2) (m - 1) (n - 2)
  | _ => rbind (at_ix (brks p) (m - 2)) (fun a =>
         match a with Finite a => addSegment eps p (PInfSeg a f) | _ => Err EMInfAtom end)
  end).

(** PiecewiseFunction(fun = f, breakPoints = bp, lpoles = lp, rpoles = rp) (segments.py:998-1051) *)
Definition make_pwf (eps : R) (f : R -> R) (bp : list Rbar) (lp rp : list bool) : res pwf :=
  match bp with
  | b0 :: b1 :: _ =>
      if (blt b0 b1 && ble b1 (last bp b0))%bool then
        if ((length bp =? length rp) && (length rp =? length lp))%nat%bool then
          rbind (add_first eps f lp rp (PW [] bp)) (fun p =>
          if (length bp =? 2)%nat then Ok p
          else rbind (add_inner eps f lp rp p (seq 1 (length bp - 3))) (fun p' => add_last eps f lp rp p'))
        else Err EAssert
      else Err EAssert
  | _ => Err EAssert
  end.
(** rpoles = None (segments.py:1007-1008) *)
Definition no_poles (bp : list Rbar) : list bool := map (fun _ => false) bp.

(** NormalDistr (standard_distr.py:141-171) *)
Definition normal_pdf (mu sigma x : R) : R :=
  let one_over_twosigma2 := 0.5 / (sigma * sigma) in
  let nrm := 1 / (sigma * sqrt (2 * PI)) in
  let q := (x - mu) * (x - mu) * one_over_twosigma2 in nrm * exp (- q).
Definition normal_init (eps mu sigma : R) : res pwf :=
  if rle sigma 0 then Err EValue
  else let b1 := mu - sigma in let b2 := mu + sigma in let f := normal_pdf mu sigma in
       addAll eps empty_pwf [MInfSeg b1 f; Seg b1 b2 f; PInfSeg b2 f].
Definition normal_range : Rbar * Rbar := (m_infty, p_infty).

(** UniformDistr (173-189); 1.0 / float(b-a) *)
Definition uniform_init (eps a b : R) : res pwf :=
  if req (b - a) 0 then Err EZeroDiv else addAll eps empty_pwf [ConstSeg a b (1 / (b - a))].
Definition uniform_range (a b : R) : Rbar * Rbar := (Finite a, Finite b).

(** TrapezoidalDistr (191-218) *)
Definition lin_fun1 (a b u x : R) : R := u * (x - a) / (b - a).
Definition lin_fun2 (c d u x : R) : R := u * (d - x) / (d - c).
Definition trapz_init (eps a b c d : R) : res pwf :=
  if req (d + c - (b + a)) 0 then Err EZeroDiv
  else let u := 2 / (d + c - (b + a)) in
       addAll eps empty_pwf
         ((if rlt a b then [Seg a b (lin_fun1 a b u)] else []) ++
          (if rlt b c then [ConstSeg b c u] else []) ++
          (if rlt c d then [Seg c d (lin_fun2 c d u)] else [])).
Definition trapz_range (a d : R) : Rbar * Rbar := (Finite a, Finite d).

(** CauchyDistr (220-246) *)
Definition cauchy_pdf (gamma center x : R) : R := gamma / (PI * (gamma * gamma + (x - center) * (x - center))).
Definition cauchy_init (eps gamma center : R) : res pwf :=
  let b1 := center - gamma in let b2 := center + gamma in let f := cauchy_pdf gamma center in
  addAll eps empty_pwf [MInfSeg b1 f; Seg b1 b2 f; PInfSeg b2 f].
Definition cauchy_range : Rbar * Rbar := (m_infty, p_infty).

(** GammaDistr (352-409); [lg] is utils.lgamma.  The value at 0 may be inf. *)
Section Lgamma.
Variable lg : R -> R.
Definition gamma_pdf_at_0 (k theta : R) : Rbar :=
  if rlt k 1 then p_infty else if req k 1 then Finite (1 / theta) else Finite 0.
Definition gamma_log_pdf (k theta x : R) : R := (k - 1) * ln x - x / theta - (lg k + k * ln theta).
Definition gamma_pdf (k theta x : R) : Rbar :=
  if rlt x 0 then Finite 0 else if req x 0 then gamma_pdf_at_0 k theta else Finite (exp (gamma_log_pdf k theta x)).
(** inside the pieces the density is finite *)
Definition gamma_f (k theta x : R) : R := real (gamma_pdf k theta x).
Definition gamma_init (eps k theta : R) : res pwf :=
  if (rlt 0 k && rlt 0 theta)%bool then
    let f := gamma_f k theta in
    if rlt k 1 then addAll eps empty_pwf [PoleSeg 0 1 f true; PInfSeg 1 f]
    else if req k 1 then addAll eps empty_pwf [Seg 0 1 f; PInfSeg 1 f]
    else let mode := (k - 1) * theta in
         addAll eps empty_pwf [Seg 0 (mode / 2) f; Seg (mode / 2) mode f; Seg mode (2 * mode) f; PInfSeg (2 * mode) f]
  else Err EAssert.

(** ChiSquareDistr (248-321); for 0 < df < 1 init_piecewise_pdf only prints a message and the attribute
    stays None *)
Definition chi_pdf_at_0 (df : R) : Rbar := if req df 1 then p_infty else if req df 2 then Finite 0.5 else Finite 0.
Definition chi_log_pdf (df x : R) : R := (df / 2 - 1) * ln x - x / 2 - (lg (df / 2) + df / 2 * ln 2).
Definition chi_pdf (df x : R) : Rbar :=
  if rlt x 0 then Finite 0 else if req x 0 then chi_pdf_at_0 df else Finite (exp (chi_log_pdf df x)).
Definition chi_f (df x : R) : R := real (chi_pdf df x).
Definition chi_init (eps df : R) : res pwf :=
  if rlt 0 df then
    if (rle 1 df && rle df 20)%bool then
      let bp := [Finite 0; Finite (df / 2); Finite (df * 2); p_infty] in
      make_pwf eps (chi_f df) bp [true; false; false; false] (no_poles bp)
    else if rlt 20 df then
      let bp := [Finite 0; Finite (df * 0.75); Finite (df * 4 / 3); p_infty] in
      make_pwf eps (chi_f df) bp [true; false; false; false] (no_poles bp)
    else Err ENone
  else Err EAssert.

(** BetaDistr (411-457); [mpe] is params.pole_detection.max_pole_exponent.  At 0 and 1 numpy may produce
    nan (0 * -inf); the model's ln is 0 there. *)
Definition beta_f (alpha beta x : R) : R :=
  if (rlt x 0 || rlt 1 x)%bool then 0
  else exp (lg (alpha + beta) - lg alpha - lg beta + ln x * (alpha - 1) + ln (1 - x) * (beta - 1)).
Definition beta_init (eps mpe alpha beta : R) : res pwf :=
  let m := 1 / 2 in let f := beta_f alpha beta in
  let poleL := (rlt alpha 2 && rlt mpe (Rabs (alpha - 1)))%bool in
  let poleR := (rlt beta 2 && rlt mpe (Rabs (beta - 1)))%bool in
  addAll eps empty_pwf
    (if (poleL && poleR)%bool then [PoleSeg 0 m f true; PoleSeg m 1 f false]
     else if poleL then [PoleSeg 0 m f true; Seg m 1 f]
     else if poleR then [Seg 0 m f; PoleSeg m 1 f false]
     else [Seg 0 m f; Seg m 1 f]).

(** StudentTDistr (552-576) *)
Definition student_pdf (df x : R) : R :=
  exp (lg ((df + 1) / 2) - lg (df / 2) - 0.5 * (ln df + ln PI) - (df + 1) / 2 * ln (1 + x ^ 2 / df)).
Definition student_init (eps df : R) : res pwf :=
  if rlt 0 df then
    let infl := sqrt (df / (df + 2)) in let f := student_pdf df in
    addAll eps empty_pwf [MInfSeg (- infl) f; Seg (- infl) infl f; PInfSeg infl f]
  else Err EAssert.

(** FDistr (609-658) *)
Definition fdist_pdf_at_0 (df1 : R) : Rbar := if rlt df1 2 then p_infty else if req df1 2 then Finite 1 else Finite 0.
Definition fdist_pdf (df1 df2 x : R) : Rbar :=
  let lg_norm := df2 / 2 * ln df2 + lg ((df1 + df2) / 2) - lg (df1 / 2) - lg (df2 / 2) in
  if rlt x 0 then Finite 0 else if req x 0 then fdist_pdf_at_0 df1
  else Finite (exp (lg_norm + 0.5 * (df1 * ln (df1 * x) - (df1 + df2) * ln (df1 * x + df2)) - ln x)).
Definition fdist_f (df1 df2 x : R) : R := real (fdist_pdf df1 df2 x).
Definition fdist_init (eps df1 df2 : R) : res pwf :=
  let f := fdist_f df1 df2 in
  if rlt df1 2 then addAll eps empty_pwf [PoleSeg 0 1 f true; PInfSeg 1 f]
  else if req df1 2 then addAll eps empty_pwf [Seg 0 1 f; PInfSeg 1 f]
  else let mode := (df1 - 2) / df1 * df2 / (df2 + 2) in
       addAll eps empty_pwf [PoleSeg 0 mode f true; Seg mode (mode + 1) f; PInfSeg (mode + 1) f].
End Lgamma.

(** ExponentialDistr (323-350) *)
Definition expo_pdf (lmbda x : R) : R := if rlt x 0 then 0 else lmbda * exp (- lmbda * x).
Definition expo_init (eps lmbda : R) : res pwf :=
  let f := expo_pdf lmbda in addAll eps empty_pwf [Seg 0 1 f; PInfSeg 1 f].
Definition halfline_range : Rbar * Rbar := (Finite 0, p_infty).

(** ParetoDistr (459-490) *)
Definition pareto_pdf (alpha xmin x : R) : R :=
  let nrm := alpha * Rpower xmin alpha in if rlt x xmin then 0 else nrm / Rpower x (alpha + 1).
Definition pareto_init (eps alpha xmin : R) : res pwf :=
  if (rlt 0 alpha && rlt 0 xmin)%bool then
    let f := pareto_pdf alpha xmin in addAll eps empty_pwf [Seg xmin (xmin + 1) f; PInfSeg (xmin + 1) f]
  else Err EAssert.
Definition pareto_range (xmin : R) : Rbar * Rbar := (Finite xmin, p_infty).

(** LevyDistr (492-523) and its sampler (515-517), a function of the normal deviate z *)
Definition levy_pdf (c xmin x : R) : R :=
  let nrm := sqrt (c / (2 * PI)) in
  if rle x xmin then 0 else nrm * exp (ln (x - xmin) * (-1.5) - 0.5 * c / (x - xmin)).
Definition levy_init (eps c xmin : R) : res pwf :=
  if rlt 0 c then
    let f := levy_pdf c xmin in addAll eps empty_pwf [Seg xmin (xmin + c) f; PInfSeg (xmin + c) f]
  else Err EAssert.
Definition levy_range (xmin : R) : Rbar * Rbar := (Finite xmin, p_infty).
Definition levy_sigma (c : R) : R := 1 / sqrt c.
Definition levy_rand (xmin z : R) : R := xmin + 1 / z ^ 2.

(** LaplaceDistr (525-550) *)
Definition laplace_pdf (lmbda mu x : R) : R := 0.5 / lmbda * exp (- Rabs (x - mu) / lmbda).
Definition laplace_init (eps lmbda mu : R) : res pwf :=
  if rlt 0 lmbda then
    let f := laplace_pdf lmbda mu in
    addAll eps empty_pwf [MInfSeg (mu - 2 * lmbda) f; Seg (mu - 2 * lmbda) mu f;
                          Seg mu (mu + 2 * lmbda) f; PInfSeg (mu + 2 * lmbda) f]
  else Err EAssert.

(** SemicircleDistr (578-607).  [semi_pdf]: one element; [semi_call]: the method on a number, which leaves y
    unassigned outside the support; [semi_vec]: the method on an array, which assigns all values through the mask. *)
Definition in_semi (r x : R) : bool := (rle (- r) x && rle x r)%bool.
Definition semi_value (r x : R) : R := 2 / (PI * r * r) * sqrt (r * r - x * x).
Definition semi_pdf (r x : R) : R := if in_semi r x then semi_value r x else 0.
Definition semi_call (r x : R) : res R := if in_semi r x then Ok (semi_value r x) else Err EName.
(** y = zeros_like(x); y[mask] = v with as many values in v as elements of x: numpy accepts it when every
    element is selected, or broadcasts when v has one element *)
Definition assign_masked (mask : R -> bool) (f : R -> R) (xs : list R) : res (list R) :=
  if (forallb mask xs || (length xs =? 1)%nat)%bool then Ok (map (fun x => if mask x then f x else 0) xs) else Err EValue.
Definition semi_vec (r : R) (xs : list R) : res (list R) := assign_masked (in_semi r) (semi_value r) xs.
Definition semi_init (eps r : R) : res pwf :=
  if rlt 0 r then
    let f := semi_pdf r in
    addAll eps empty_pwf [PoleSeg (- r) (- r / 2) f true; Seg (- r / 2) (r / 2) f; PoleSeg (r / 2) r f false]
  else Err EAssert.
Definition semi_range (r : R) : Rbar * Rbar := (Finite (- r), Finite r).

(** WeibullDistr (660-712) *)
Definition weibull_pdf_at_0 (k : R) : Rbar := if rlt k 1 then p_infty else if req k 1 then Finite 1 else Finite 0.
Definition weibull_pdf (k lmbda x : R) : Rbar :=
  let nrm := k / lmbda in
  if rlt x 0 then Finite 0 else if req x 0 then weibull_pdf_at_0 k
  else Finite (nrm * exp (ln (x / lmbda) * (k - 1) - Rpower (x / lmbda) k)).
Definition weibull_f (k lmbda x : R) : R := real (weibull_pdf k lmbda x).
(** k == floor(k) *)
Definition is_int (k : R) : bool := req k (IZR (up k - 1)).
Definition weibull_init (eps k lmbda : R) : res pwf :=
  if (rlt 0 k && rlt 0 lmbda)%bool then
    let f := weibull_f k lmbda in
    if rle k 1 then let bp := [Finite 0; Finite k; p_infty] in make_pwf eps f bp [true; false; false] (no_poles bp)
    else let mode := lmbda * Rpower ((k - 1) / k) (1 / k) in
         let bp := [Finite 0; Finite mode; p_infty] in
         if is_int k then make_pwf eps f bp [false; false; false] (no_poles bp)
         else make_pwf eps f bp [true; false; false] (no_poles bp)
  else Err EAssert.

(** GumbelDistr (714-749); [maxarg] is _MAX_EXP_ARG (line 13) *)
Definition gumbel_pdf (maxarg mu sigma x : R) : R :=
  let t := 1 / sigma * (mu - x) in if rlt maxarg t then 0 else 1 / sigma * exp (t - exp t).
Definition gumbel_init (eps maxarg mu sigma : R) : res pwf :=
  if rlt 0 sigma then
    let infl1 := mu - sigma * ln ((3 + sqrt 5) / 2) in let infl2 := mu + sigma * ln ((3 + sqrt 5) / 2) in
    let f := gumbel_pdf maxarg mu sigma in
    addAll eps empty_pwf [MInfSeg infl1 f; Seg infl1 infl2 f; PInfSeg infl2 f]
  else Err EAssert.

(** FrechetDistr (751-792) and its sampler (784-786), a function of the uniform deviate u *)
Definition frechet_pdf (alpha s m x : R) : R :=
  let t := (x - m) / s in
  if rle t 0 then 0 else alpha / s * exp (- (alpha + 1) * ln t - Rpower t (- alpha)).
Definition frechet_infl (alpha sgn : R) : R :=
  alpha * (3 * (alpha + 1) + sgn * sqrt (1 + 6 * alpha + 5 * alpha ^ 2)) / (alpha + 1) / (alpha + 2) / 2.
Definition frechet_init (eps alpha s m : R) : res pwf :=
  if (rlt 0 alpha && rlt 0 s)%bool then
    let infl1 := m + Rpower (frechet_infl alpha (-1)) (1 / alpha) * s in
    let infl2 := m + Rpower (frechet_infl alpha 1) (1 / alpha) * s in
    let f := frechet_pdf alpha s m in
    addAll eps empty_pwf [Seg m infl1 f; Seg infl1 infl2 f; PInfSeg infl2 f]
  else Err EAssert.
Definition frechet_rand (alpha s m u : R) : R := m + s * Rpower (- ln u) (-1 / alpha).

(** LogLogisticDistr (803-861); the messages of both checks use unbound names.  numpy.logaddexp(a,b) is
    log(exp(a)+exp(b)). *)
Definition loglog_value (k s x : R) : R :=
  exp (ln k + k * ln s + (k - 1) * ln x - 2 * ln (exp (k * ln s) + exp (k * ln x))).
Definition loglog_pdf (k s x : R) : R := if rle 0 x then loglog_value k s x else 0.
Definition loglog_vec (k s : R) (xs : list R) : res (list R) := assign_masked (rle 0) (loglog_value k s) xs.
Definition loglog_breaks (k s : R) : list Rbar :=
  let p1 := 2 * (k ^ 2 - 1) in let p2 := k * sqrt (3 * (k ^ 2 - 1)) in let p3 := (k + 1) * (k + 2) in
  Finite 0 ::
  (if rlt 1 k then
     (if rlt 2 k then [Finite (s * Rpower ((p1 - p2) / p3) (1 / k))] else []) ++
     [Finite (s * Rpower ((p1 + p2) / p3) (1 / k))]
   else [Finite 1]) ++ [p_infty].
Definition loglog_init (eps k s : R) : res pwf :=
  if rle k 0 then Err EName else if rle s 0 then Err EName
  else let bp := loglog_breaks k s in
       make_pwf eps (loglog_pdf k s) bp ((rlt k 1 || negb (is_int k))%bool :: map (fun _ => false) (tl bp)) (no_poles bp).
(** rand_raw (852-855) asks for attributes a and b that the object does not have *)
Definition loglog_rand (k s u : R) : res R := Err EName.

(** GumbelDistr.range (748-749) and FrechetDistr.range (791-792) *)
Definition gumbel_range : Rbar * Rbar := halfline_range.
Definition frechet_range : Rbar * Rbar := halfline_range.
