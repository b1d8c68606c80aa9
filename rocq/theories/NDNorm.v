(** Model: the multivariate normal distribution (pacal/depvars/nddistr.py:511-561).  Matrices are lists of rows; determinant and
    inverse are exact (RMx.v). *)
From Coq Require Import Reals List Bool Arith.
From Verif Require Import Base Interp Grid ND Std RMx.
Import List ListNotations.
Open Scope R_scope.

Definition mat := list (list R).
(** entry in row i and column j *)
Definition entry (m : mat) (i j : nat) : R := nth j (nth i m []) 0.
(** shape[1] of a matrix with at least one row *)
Definition cols (m : mat) : nat := length (nth 0 m []).
(** a.shape == (r, c) *)
Definition has_shape (m : mat) (r c : nat) : bool := ((length m =? r) && forallb (fun row => length row =? c) m)%nat%bool.
Definition table (r c : nat) (f : nat -> nat -> R) : mat := map (fun i => map (f i) (seq 0 c)) (seq 0 r).

(** variables, mean, covariance matrix, its inverse and the normalising constant *)
Record ndnormal := NDN { g_vars : list nat; g_mu : list R; g_Sigma : mat; g_inv : mat; g_nrm : R }.
(** NDNormalDistr.__init__ (nddistr.py:512-529) with given variables; len(Vars) has to be d but is not checked.
    A zero determinant makes Sigma.I raise LinAlgError.  Simplification: a negative determinant, for which the constant is nan
    and a warning is printed, is refused here. *)
Definition normal_nd (vars : list nat) (mu : list R) (Sigma : mat) : res ndnormal :=
  let d := length mu in
  if has_shape Sigma d d then
    let D := mdet d (entry Sigma) in
    if rle D 0 then Err EValue
    else Ok (NDN vars mu Sigma (table d d (minv d (entry Sigma))) (1 / sqrt (D * (2 * PI) ^ d)))
  else Err EAssert.
(** Vars=None: variable i is NormalDistr(mu[i], Sigma[i,i]) (nddistr.py:519-520); its density *)
Definition default_pdf (mu : list R) (Sigma : mat) (i : nat) : R -> R := normal_pdf (nth i mu 0) (entry Sigma i i).

(** elementwise difference *)
Definition sub_lists (l m : list R) : list R := map (fun p => fst p - snd p) (combine l m).
(** dot(A, x) and dot(x, A) *)
Definition mat_vec (m : mat) (x : list R) : list R := map (fun row => dot row x) m.
Definition vec_mat (x : list R) (m : mat) : list R := map (fun j => dot x (map (fun row => nth j row 0) m)) (seq 0 (length x)).
(** pdf with scalar arguments (nddistr.py:531-533).  Arguments of another number than d do not broadcast, except for one. *)
Definition ndn_pdf (g : ndnormal) (X : list R) : R :=
  let Y := sub_lists X (g_mu g) in g_nrm g * exp (- 0.5 * dot Y (mat_vec (g_inv g) Y)).
(** pdf with array arguments (nddistr.py:534-539), one array for every coordinate *)
Definition ndn_pdf_array (g : ndnormal) (columns : list (list R)) : list R :=
  map (fun X => let Y := sub_lists X (g_mu g) in g_nrm g * exp (- 0.5 * sum_list (mul_lists (vec_mat Y (g_inv g)) Y)))
      (points (length (nth 0 columns [])) columns).
(** the object as a function with a box (nddistr.py:523-524, 47-98) for at least two variables; a single variable becomes a
    PiecewiseFunction instead *)
Definition ndn_fun (g : ndnormal) : ndfun := NDF (g_vars g) (map (fun m => m - 5) (g_mu g)) (map (fun m => m + 5) (g_mu g)) false (ndn_pdf g).

(** prepare_var (nddistr.py:107-114): the positions that are left *)
Definition others (d : nat) (idx : list nat) : list nat := filter (fun i => negb (existsb (Nat.eqb i) idx)) (seq 0 d).
Definition pick {A} (d : A) (l : list A) (idx : list nat) : list A := map (fun i => nth i l d) idx.
(** a distribution or NDOneFactor *)
Inductive ndres := NOne | NDist (g : ndnormal).
(** NDNormalDistr.eliminate (nddistr.py:541-548); numpy.delete keeps the entries at the other positions *)
Definition ndn_elim (g : ndnormal) (vs : list nat) : res ndres :=
  rbind (positions vs (g_vars g)) (fun var =>
  let c_var := others (length (g_mu g)) var in
  let m_mu := pick 0 (g_mu g) c_var in
  let m_Sigma := map (fun row => pick 0 row c_var) (pick [] (g_Sigma g) c_var) in
  match m_mu with [] => Ok NOne | _ => rmap NDist (normal_nd (pick O (g_vars g) c_var) m_mu m_Sigma) end).

(** a[r, c] of a matrix with two lists of indices: the lists are paired (after repeating a list of length one) and the result is a
    matrix with one row *)
Definition fancy (m : mat) (r c : list nat) : res mat :=
  match r, c with
  | [i], _ => Ok [map (fun j => entry m i j) c]
  | _, [j] => Ok [map (fun i => entry m i j) r]
  | _, _ => if (length r =? length c)%nat then Ok [map (fun p => entry m (fst p) (snd p)) (combine r c)] else Err EIndex
  end.
(** the product of matrices *)
Definition mat_mul (a b : mat) : res mat :=
  if (cols a =? length b)%nat then Ok (table (length a) (cols b) (fun i j => sum_list (map (fun k => entry a i k * entry b k j) (seq 0 (length b)))))
  else Err EValue.
(** the attribute I: the inverse of a square matrix, otherwise the pseudo-inverse, here of a matrix with one row *)
Definition mat_I (m : mat) : res mat :=
  let n := length m in
  if has_shape m n n then (if req (mdet n (entry m)) 0 then Err EValue else Ok (table n n (minv n (entry m))))
  else let row := nth 0 m [] in let q := dot row row in
       Ok (map (fun x => [if req q 0 then 0 else x / q]) row).
(** elementwise operation of two arrays of one dimension, a length of one being repeated *)
Definition broadcast (op : R -> R -> R) (x y : list R) : res (list R) :=
  match x, y with
  | [a], _ => Ok (map (fun b => op a b) y)
  | _, [b] => Ok (map (fun a => op a b) x)
  | _, _ => if (length x =? length y)%nat then Ok (map (fun p => op (fst p) (snd p)) (combine x y)) else Err EValue
  end.
(** NDNormalDistr.condition (nddistr.py:549-560).  All four blocks have one row, so that the sums are sums of rows; X - mu[var] is
    an array of one dimension and stands for a row in the product. *)
Definition ndn_cond (g : ndnormal) (vs : list nat) (X : list R) : res ndres :=
  rbind (positions vs (g_vars g)) (fun var =>
  let c_var := others (length (g_mu g)) var in
  match c_var with
  | [] => Ok NOne
  | _ =>
    let s := g_Sigma g in
    rbind (fancy s c_var c_var) (fun s11 =>
    rbind (fancy s c_var var) (fun s12 =>
    rbind (fancy s var c_var) (fun s21 =>
    rbind (fancy s var var) (fun s22 =>
    rbind (mat_I s22) (fun i22 =>
    rbind (mat_mul s12 i22) (fun b =>
    rbind (broadcast Rminus X (pick 0 (g_mu g) var)) (fun dx =>
    rbind (mat_mul b [dx]) (fun m =>
    rbind (broadcast Rplus (pick 0 (g_mu g) c_var) (nth 0 m [])) (fun c_mu =>
    rbind (mat_mul b s21) (fun e =>
    rbind (broadcast Rminus (nth 0 s11 []) (nth 0 e [])) (fun row =>
    rmap NDist (normal_nd (pick O (g_vars g) c_var) c_mu [row]))))))))))))
  end).
