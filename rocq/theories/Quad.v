(** Model: quadrature weights and adaptive quadrature on a finite interval (pacal/integration.py 43-162). *)
From Coq Require Import Reals List Bool Arith.
From Verif Require Import Base Conv Interp Grid.
Import List ListNotations.
Open Scope R_scope.

(** ifft(u).real for real u (numpy.fft); simplification: the transform is exact *)
Definition ifft_real (u : list R) : list R :=
  map (fun j => sum_list (mul_lists u (map (fun k => cos (2 * PI * INR j * INR k / INR (length u))) (seq 0 (length u)))) / INR (length u))
      (seq 0 (length u)).
(** elementwise sum of equally long arrays *)
Definition add_lists (l m : list R) : list R := map (fun p => fst p + snd p) (combine l m).
(** N = arange(1, n1, 2) (integration.py:55, 81): n1/2 entries *)
Definition odds (n1 : nat) : list R := map (fun i => INR (2 * i + 1)) (seq 0 (n1 / 2)).
(** v0 (integration.py:58, 84); N[-1] of an empty array raises IndexError *)
Definition w_v0 (n1 : nat) : res (list R) :=
  match odds n1 with
  | [] => Err EIndex
  | N => Ok (map Ropp (map (fun x => 2 / (x * (x - 2))) N ++ [1 / last N 0] ++ repeat 0 (n1 - length N)))
  end.
(** v2 = v0[:-1] + v0[-1:0:-1] (integration.py:59, 85) *)
Definition w_v2 (n1 : nat) : res (list R) := rmap (fun v0 => add_lists (removelast v0) (rev (tl v0))) (w_v0 n1).
(** g (integration.py:61-64) *)
Definition w_g (n1 : nat) : list R :=
  let l := length (odds n1) in let m := (n1 - l)%nat in
  map (fun x => x / (INR n1 ^ 2 - 1 + INR (n1 mod 2)))
      (upd m (fun x => x + INR n1) (upd l (fun x => x + INR n1) (repeat (- (1)) n1))).
(** clenshaw_coefficients (integration.py:45-68).  The cache returns what was computed before for the same n, so it is left out. *)
Definition clenshaw_coefficients (n : nat) : res (list R) :=
  rmap (fun v2 => let coeffs := ifft_real (add_lists v2 (w_g (n - 1))) in coeffs ++ [hd 0 coeffs]) (w_v2 (n - 1)).
(** fejer2_coefficients (integration.py:71-89), cache left out in the same way *)
Definition fejer2_coefficients (n : nat) : res (list R) := rmap (fun v2 => tl (ifft_real v2)) (w_v2 (n - 1)).

(** one value I = dot(fs, coeffs) * (b - a) / 2 (integration.py:108, 149); dot needs equal lengths *)
Definition quad_sum (fs coeffs : list R) (a b : R) : res R :=
  if Nat.eqb (length fs) (length coeffs) then Ok (dot fs coeffs * (b - a) / 2) else Err EValue.

(** the loop of integrate_fejer2 (integration.py:131-155): the monitor after the last round.  [st] is nodes and fs, None before
    the first round.  [fuel] bounds the recursion only. *)
Fixpoint fejer2_loop (f : R -> R) (a b : R) (p : mpar) (maxn fuel n : nat) (st : option (list R * list R)) (prev : option R) (m : mon unit)
  : res (mon unit) :=
  if Nat.leb n maxn then
    match fuel with
    | O => Err ERuntime
    | S fuel' =>
        rbind (fejer2_coefficients n) (fun coeffs =>
        rbind (match st with
               | None => rmap (fun xs => let nodes := removelast (tl xs) in (nodes, map f nodes)) (cheb_nodes n a b)
               | Some (nodes, fs) => let nX := incremental_cheb_nodes n a b in combine_fast nX (map f nX) nodes fs
               end) (fun q =>
        rbind (quad_sum (snd q) coeffs a b) (fun i =>
        match prev with
        | None => fejer2_loop f a b p maxn fuel' (2 * n - 1) (Some q) (Some i) m
        | Some i0 =>
            match mon_test p (mon_add m (Rabs (i - i0), i, tt)) with
            | (_, Err e) => Err e
            | (m', Ok Continue) => fejer2_loop f a b p maxn fuel' (2 * n - 1) (Some q) (Some i) m'
            | (m', Ok _) => Ok m'
            end
        end)))
    end
  else Ok m.
(** integrate_fejer2 (integration.py:122-162): value and error estimate of the best round *)
Definition integrate_fejer2 (f : R -> R) (a b : R) (p : mpar) (big decr : R) (maxn : nat) : res (R * R) :=
  rbind (fejer2_loop f a b p maxn (S maxn) 65 None None mon_init) (fun m =>
  rmap (fun t => (e_y t, e_ae t)) (mon_best big decr m)).

(** the loop of integrate_clenshaw (integration.py:93-116): n, I and err when the loop ends *)
Fixpoint clenshaw_loop (f : R -> R) (a b : R) (p : mpar) (maxn fuel n : nat) (st : option (list R * list R)) (prev : option R) (err : option R) (m : mon unit)
  : res (nat * option R * option R) :=
  if Nat.leb n maxn then
    match fuel with
    | O => Err ERuntime
    | S fuel' =>
        rbind (clenshaw_coefficients n) (fun coeffs =>
        rbind (match st with
               | None => rmap (fun nodes => (nodes, map f nodes)) (cheb_nodes n a b)
               | Some (nodes, fs) => let nX := incremental_cheb_nodes n a b in combine_fast nodes fs nX (map f nX)
               end) (fun q =>
        rbind (quad_sum (snd q) coeffs a b) (fun i =>
        match prev with
        | None => clenshaw_loop f a b p maxn fuel' (2 * n - 1) (Some q) (Some i) err m
        | Some i0 =>
            match mon_test p (mon_add m (Rabs (i - i0), i, tt)) with
            | (_, Err e) => Err e
            | (m', Ok Continue) => clenshaw_loop f a b p maxn fuel' (2 * n - 1) (Some q) (Some i) (Some (Rabs (i - i0))) m'
            | (_, Ok _) => Ok (n, Some i, Some (Rabs (i - i0)))
            end
        end)))
    end
  else Ok (n, prev, err).
(** integrate_clenshaw (integration.py:91-120): the parameter debug_plot hides the function of that name, so that
    a run ending with n >= maxn calls a boolean (TypeError) unless debug_plot is false *)
Definition integrate_clenshaw (f : R -> R) (a b : R) (p : mpar) (maxn : nat) (debug_plot : bool) : res (R * R) :=
  rbind (clenshaw_loop f a b p maxn (S maxn) 3 None None None mon_init) (fun r =>
  let '(n, i, err) := r in
  if debug_plot && Nat.leb maxn n then Err EType
  else match i, err with Some v, Some e => Ok (v, e) | _, _ => Err EName end).
