(** Model: Chebyshev transforms (pacal/utils.py 172-228) and the derivative, roots and trimming of interpolators built on them
    (pacal/interpolation.py 149-190, 257-267). *)
From Coq Require Import Reals List Bool Arith.
From Verif Require Import Base Interp Quad.
Import List ListNotations.
Open Scope R_scope.

(** real(fft(u)) for real u; simplification: the transform is exact *)
Definition fft_real (u : list R) : list R :=
  map (fun j => sum_list (mul_lists u (map (fun k => cos (2 * PI * INR j * INR k / INR (length u))) (seq 0 (length u))))) (seq 0 (length u)).

(** chebt2 (utils.py:172-183).  The statement fftcoef[n-1:0:-1] += fftcoef[n-1:] adds entry 2n-2-i to entry i for i = 1 .. n-1.
    An empty array makes fft raise, one value divides by zero. *)
Definition chebt2 (f : list R) : res (list R) :=
  let n := length f in
  match n with
  | O => Err EValue
  | S O => Err EZeroDiv
  | _ =>
      let oncircle := rev f ++ removelast (tl f) in
      let coef := map (fun x => x / INR (2 * n - 2)) (fft_real oncircle) in
      let folded := firstn 1 coef ++ add_lists (firstn (n - 1) (tl coef)) (rev (skipn (n - 1) coef)) in
      Ok (rev folded)
  end.
(** ichebt2 (utils.py:185-192) *)
Definition ichebt2 (c : list R) : res (list R) :=
  let n := length c in
  match n with
  | O => Err EIndex
  | _ =>
      let halves := map (fun x => x / 2) in
      let oncircle := [last c 0] ++ halves (rev (tl (removelast c))) ++ halves (removelast c) in
      let v := ifft_real oncircle in
      Ok (map (fun x => INR (n - 1) * x)
              ([2 * hd 0 v] ++ add_lists (firstn (n - 2) (tl v)) (rev (skipn n v)) ++ [2 * nth (n - 1) v 0]))
  end.

(** cumsum of the even and of the odd positions (interpolation.py:157-158): [e] is the running sum of the positions of the
    parity of the head, [o] of the other ones *)
Fixpoint cum2 (e o : R) (l : list R) : list R := match l with [] => [] | x :: l' => (e + x) :: cum2 o (e + x) l' end.
(** 2 * arange(n-1, 0, -1) * c[0:-1] (interpolation.py:156) *)
Definition diff_terms (c : list R) : list R := mul_lists (map (fun i => 2 * INR (length c - 1 - i)) (seq 0 (length c - 1))) (removelast c).
(** coefficients of the derivative (interpolation.py:154-160) *)
Definition cheb_diff (c : list R) : list R := skipn 2 (upd_last (fun x => x / 2) (cum2 0 0 ([0; 0] ++ diff_terms c))).

(** nodes, values and weights of a BarycentricInterpolator; the constructor checks no lengths *)
Record binterp := BI { bX : list R; bY : list R; bW : list R }.
Definition bcall (p : binterp) (x : R) : res R := bary_at (bX p) (bY p) (bW p) x.
(** chebspace with weights (utils.py:116-131) has the nodes of cheb_nodes and the weights of ChebyshevInterpolator *)
Definition on_chebspace (a b : R) (ys : list R) : res binterp :=
  rmap (fun xs => BI xs ys (cheb_weights (length ys))) (cheb_nodes (length ys) a b).
(** the ends Xs[0] and Xs[-1] *)
Definition ends (l : list R) : res (R * R) := match l with [] => Err EIndex | x :: _ => Ok (x, last l x) end.

(** BarycentricInterpolator.diff with use_2nd=True (interpolation.py:152-165) *)
Definition diff2 (p : binterp) : res binterp :=
  rbind (chebt2 (bY p)) (fun c =>
  rbind (ichebt2 (cheb_diff c)) (fun v =>
  rbind (ends (bX p)) (fun ab => let (a, b) := ab in
  on_chebspace a b (rev (map (fun y => y / ((b - a) * (1 / 2))) v))))).
(** diff with use_2nd=False (interpolation.py:166-169) *)
Definition diff1 (p : binterp) : res binterp :=
  rbind (ends (bX p)) (fun ab => let (a, b) := ab in
  rbind (cheb_nodes (length (bX p) + 2) a b) (fun xs =>
  rbind (map_res (bcall p) xs) (fun ys =>
  diff2 (BI xs ys (cheb_weights (length xs)))))).

(** the loop of ChebyshevInterpolator.trim (interpolation.py:261-262) *)
Fixpoint trim_coefs (tol : R) (c : list R) : res (list R) :=
  match c with [] => Err EIndex | x :: c' => if rlt x tol then trim_coefs tol c' else Ok c end.
(** ChebyshevInterpolator.trim (interpolation.py:257-267); [a], [b] are the ends given to the interpolator *)
Definition trim (a b tol : R) (p : binterp) : res binterp :=
  rbind (chebt2 (bY p)) (fun c =>
  rbind (trim_coefs tol c) (fun c =>
  rbind (ichebt2 c) (fun v => on_chebspace a b (rev v)))).

(** cheb1companion (utils.py:216-227), entry in row i and column j; n = len(c), lowest coefficient first *)
Definition companion_entry (c : list R) (i j : nat) : R :=
  let n := length c in
  if Nat.eqb i (n - 2) then - (1 / 2) * nth j c 0 / last c 0 + (if Nat.eqb j (n - 3) then 1 / 2 else 0)
  else if Nat.eqb i 0 then (if Nat.eqb j 1 then 1 else 0)
  else if (Nat.eqb j (i - 1) || Nat.eqb j (i + 1))%bool then 1 / 2 else 0.
(** fewer than three coefficients raise IndexError at CT[0,1]; a leading coefficient 0 puts infinities or nan into the matrix,
    which eigvals refuses *)
Definition companion (c : list R) : res (list (list R)) :=
  let n := length c in
  if Nat.ltb n 3 then Err EIndex
  else if req (last c 0) 0 then Err EValue
  else Ok (map (fun i => map (companion_entry c i) (seq 0 (n - 1))) (seq 0 (n - 1))).
(** BarycentricInterpolator.roots with use_2nd=True (interpolation.py:171-180): [eigs] stands for eigvals followed by sort;
    eigenvalues are pairs of real and imaginary part *)
Definition roots2 (eigs : list (list R) -> list (R * R)) (tol : R) (p : binterp) : res (list R) :=
  rbind (chebt2 (bY p)) (fun c =>
  rbind (companion (rev c)) (fun m =>
  rbind (ends (bX p)) (fun ab => let (a, b) := ab in
  let reals := map fst (filter (fun z => rlt (Rabs (snd z)) tol) (eigs m)) in
  Ok (map (fun r => (r * (b - a) + (a + b)) * (1 / 2)) (filter (fun r => rlt (- (1)) r && rlt r 1) reals))))).
