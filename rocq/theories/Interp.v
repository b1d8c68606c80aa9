(** Model: interpolation nodes, barycentric interpolation and adaptive refinement
    (pacal/utils.py 62-170, pacal/interpolation.py 58-404, pacal/bary_interp.pyx 58-102). *)
From Coq Require Import Reals List Bool Arith.
From Verif Require Import Base Conv.
Import List ListNotations.
Open Scope R_scope.

(** ** List helpers for array slices *)
(** l[i] = g(l[i]) *)
Fixpoint upd (i : nat) (g : R -> R) (l : list R) : list R :=
  match l, i with
  | [], _ => []
  | x :: l', O => g x :: l'
  | x :: l', S j => x :: upd j g l'
  end.
(** l[-1] = g(l[-1]) *)
Definition upd_last (g : R -> R) (l : list R) : list R := upd (length l - 1) g l.
(** l[::2] = v and l[1::2] = v *)
Fixpoint set_even (v : R) (l : list R) : list R :=
  match l with x :: y :: l' => v :: y :: set_even v l' | [x] => [v] | [] => [] end.
Definition set_odd (v : R) (l : list R) : list R := match l with x :: l' => x :: set_even v l' | [] => [] end.
(** elementwise product of equally long arrays *)
Fixpoint mul_lists (l m : list R) : list R :=
  match l, m with x :: l', y :: m' => x * y :: mul_lists l' m' | _, _ => [] end.
(** an array filled alternately from two arrays: c[::2] = l, c[1::2] = m *)
Fixpoint interleave (l m : list R) : list R :=
  match l with
  | [] => []
  | x :: l' => x :: match m with [] => [] | y :: m' => y :: interleave l' m' end
  end.

(** ** Nodes (utils.py) *)
(** the k-th entry of apb - bma*cos(arange(n)*pi/(n-1)) (utils.py:99) *)
Definition cheb_raw (n : nat) (a b : R) (k : nat) : R :=
  (1/2) * (a + b) - (1/2) * (b - a) * cos (INR k * PI / INR (n - 1)).
(** cheb_nodes (utils.py:93-103) *)
Definition cheb_nodes (n : nat) (a b : R) : res (list R) :=
  match n with
  | O => Err EIndex
  | S O => Ok [(1/2) * (a + b)]
  | _ => Ok (upd_last (fun _ => b) (upd 0 (fun _ => a) (map (cheb_raw n a b) (seq 0 n))))
  end.
(** incremental_cheb_nodes (utils.py:146-150); arange(1,n-1,2) has (n-1)/2 entries *)
Definition incremental_cheb_nodes (n : nat) (a b : R) : list R :=
  map (fun i => cheb_raw n a b (2 * i + 1)) (seq 0 ((n - 1) / 2)).
(** cheb_nodes1 (utils.py:157-163); arange(1,2n,2) has n entries *)
Definition cheb1_raw (n : nat) (a b : R) (k : nat) : R :=
  (1/2) * (a + b) - (1/2) * (b - a) * cos (INR (2 * k + 1) * PI / INR (2 * n)).
Definition cheb_nodes1 (n : nat) (a b : R) : list R := map (cheb1_raw n a b) (seq 0 n).
(** incremental_cheb_nodes1 (utils.py:165-170) *)
Definition incremental_cheb_nodes1 (n : nat) (a b : R) : list R :=
  map (cheb1_raw n a b) (filter (fun i => negb (Nat.eqb (i mod 3) 1)) (seq 0 n)).
(** cheb_nodes_log (utils.py:106-115) and incremental_cheb_nodes_log (utils.py:152-155) *)
Definition cheb_log_raw (n : nat) (a b : R) (k : nat) : R :=
  exp (cos (INR k * PI / INR (n - 1)) / 2 * ln (b / a)) * sqrt (a * b).
Definition cheb_nodes_log (n : nat) (a b : R) : list R :=
  upd_last (fun _ => b) (upd 0 (fun _ => a) (map (cheb_log_raw n a b) (seq 0 n))).

(** combine_interpolation_nodes (utils.py:62-67): sorted list of pairs; Python compares pairs
    lexicographically *)
Definition pair_le (p q : R * R) : bool := rlt (fst p) (fst q) || (req (fst p) (fst q) && rle (snd p) (snd q)).
Fixpoint insert_pair (p : R * R) (l : list (R * R)) : list (R * R) :=
  match l with [] => [p] | q :: l' => if pair_le p q then p :: l else q :: insert_pair p l' end.
Definition sort_pairs (l : list (R * R)) : list (R * R) := fold_right insert_pair [] l.
Definition combine_sorted (oX oY nX nY : list R) : res (list R * list R) :=
  let s := sort_pairs (combine (oX ++ nX) (oY ++ nY)) in Ok (map fst s, map snd s).
(** combine_interpolation_nodes_fast (utils.py:68-77): the slice assignments need matching lengths *)
Definition combine_fast (oX oY nX nY : list R) : res (list R * list R) :=
  let fits o n := Nat.eqb o n || Nat.eqb o (n + 1) in
  if fits (length oX) (length nX) && (Nat.eqb (length oY) (length oX)) && (Nat.eqb (length nY) (length nX))
  then Ok (interleave oX nX, interleave oY nY) else Err EValue.

(** ** Interpolation at a point *)
(** the inner loops over j != i (interpolation.py:70-74 and 100-104) *)
Definition over_others (i : nat) (Xs : list R) (step : R -> R -> R) (w : R) : R :=
  fold_left (fun w p => if Nat.eqb (fst p) i then w else step w (snd p)) (combine (seq 0 (length Xs)) Xs) w.
(** Interpolator.interp_at (interpolation.py:67-77) *)
Definition lagrange_at (Xs Ys : list R) (x : R) : R :=
  fold_left (fun ret p =>
    ret + over_others (fst p) Xs (fun w xj => w * ((x - xj) / (nth (fst p) Xs 0 - xj))) 1 * snd p)
    (combine (seq 0 (length Xs)) Ys) 0.
(** BarycentricInterpolator.init_weights (interpolation.py:97-106) *)
Definition bary_weights (Xs : list R) : list R :=
  map (fun i => over_others i Xs (fun w xj => w / (nth i Xs 0 - xj)) 1) (seq 0 (length Xs)).
(** argmin of abs(x - xn): the first smallest entry *)
Fixpoint argmin (d : R) (i best : nat) (l : list R) : nat :=
  match l with [] => best | e :: l' => if rlt e d then argmin e (S i) i l' else argmin d (S i) best l' end.
Definition nearest (Xs Ys : list R) (x : R) : res R :=
  match map (fun xn => Rabs (x - xn)) Xs with
  | [] => Err EValue
  | d :: l => match nth_error Ys (argmin d 1 0 l) with Some y => Ok y | None => Err EIndex end
  end.
(** bary_interp (bary_interp.pyx:75-93), one evaluation point *)
Fixpoint bary_loop (l : list (R * R * R)) (x num den : R) : R + R * R :=
  match l with
  | [] => inr (num, den)
  | (nx, y, w) :: l' => if req x nx then inl y else bary_loop l' x (num + w / (x - nx) * y) (den + w / (x - nx))
  end.
Definition bary_at (Xs Ys Ws : list R) (x : R) : res R :=
  match bary_loop (combine (combine Xs Ys) Ws) x 0 0 with
  | inl y => Ok y
  | inr (num, den) => if negb (req den 0) then Ok (num / den) else nearest Xs Ys x
  end.
(** the numpy version (interpolation.py:124-142), one evaluation point: zero differences are replaced by
    one and the stored value is put in afterwards (the last equal node wins) *)
Definition np_diff (x : R) (Xs : list R) : list R := map (fun xn => if req (x - xn) 0 then 1 else x - xn) Xs.
Definition div_lists (l m : list R) : list R := map (fun p => fst p / snd p) (combine l m).
Definition sum_list (l : list R) : R := fold_left Rplus l 0.
Definition np_at (Xs Ys Ws : list R) (x : R) : res R :=
  let temp := div_lists Ws (np_diff x Xs) in
  let num := sum_list (mul_lists temp Ys) in
  let den := sum_list temp in
  let found := filter (fun p => req (x - fst p) 0) (combine Xs Ys) in
  match rev found with
  | p :: _ => Ok (snd p)
  | [] => if req den 0 then
            match map Rabs (np_diff x Xs) with
            | [] => Err EValue
            | d :: l => match nth_error Ys (argmin d 1 0 l) with Some y => Ok y | None => Err EIndex end
            end
          else Ok (num / den)
  end.

(** ** Weights of the Chebyshev families (interpolation.py) *)
Definition ones (n : nat) : list R := repeat 1 n.
(** ChebyshevInterpolator.init_weights (interpolation.py:244-248), n the number of nodes *)
Definition cheb_weights (n : nat) : list R :=
  upd_last (fun w => w / 2) (upd 0 (fun w => w / 2) (set_even (-1) (ones n))).
(** ChebyshevInterpolatorNoL.init_weights (interpolation.py:296-304): arange(n)[-1:0:-1] is n-1, ..., 1 *)
Definition nol_weights (len : nat) : list R :=
  let n := S len in
  rev (mul_lists (upd 0 (fun w => w / 2) (set_even (-1) (ones len)))
                 (map (fun k => 2 * (sin (INR k * PI / INR (n - 1) / 2)) ^ 2) (rev (seq 1 len)))).
(** ChebyshevInterpolatorNoR.init_weights (interpolation.py:317-325): arange(n)[-2::-1] is n-2, ..., 0 *)
Definition nor_weights (len : nat) : list R :=
  let n := S len in
  rev (mul_lists (upd_last (fun w => w / 2) (set_odd (-1) (ones len)))
                 (map (fun k => 2 * (sin (PI / 2 - INR k * PI / INR (n - 1) / 2)) ^ 2) (rev (seq 0 len)))).
(** ChebyshevInterpolator1.init_weights (interpolation.py:388-392) *)
Fixpoint neg_odd (l : list R) : list R :=
  match l with x :: y :: l' => x :: -1 * y :: neg_odd l' | [x] => [x] | [] => [] end.
Definition cheb1_weights (n : nat) : list R :=
  neg_odd (map (fun k => sin (INR (2 * k + 1) * PI / INR (2 * n))) (seq 0 n)).

(** ** Adaptive refinement (interpolation.py:191-235 and 337-379) *)
(** one family of interpolators: get_nodes, get_incremental_nodes, the growth of n, add_nodes, init_weights
    (from the number of nodes) *)
Record family := Family {
  get_nodes : nat -> res (list R);
  get_inc : nat -> list R;
  grow : nat -> nat;
  add_nodes : list R -> list R -> list R -> list R -> res (list R * list R);
  get_weights : nat -> list R }.
(** ChebyshevInterpolator, NoL, NoR, ChebyshevInterpolator1 (interpolation.py:237-256, 294-310, 315-331, 381-400) *)
Definition fam_cheb (a b : R) : family :=
  Family (fun n => cheb_nodes n a b) (fun n => incremental_cheb_nodes n a b) (fun n => 2 * n - 1)%nat combine_fast cheb_weights.
Definition fam_nol (a b : R) : family :=
  Family (fun n => rmap (@tl R) (cheb_nodes n a b)) (fun n => incremental_cheb_nodes n a b) (fun n => 2 * n - 1)%nat
         (fun oX oY nX nY => combine_fast nX nY oX oY) nol_weights.
Definition fam_nor (a b : R) : family :=
  Family (fun n => rmap (@removelast R) (cheb_nodes n a b)) (fun n => incremental_cheb_nodes n a b) (fun n => 2 * n - 1)%nat
         combine_fast nor_weights.
Definition fam_cheb1 (a b : R) : family :=
  Family (fun n => Ok (cheb_nodes1 n a b)) (fun n => incremental_cheb_nodes1 n a b) (fun n => 3 * n)%nat combine_sorted cheb1_weights.

(** interp_at for several points, and the largest absolute value of an array (an empty array raises) *)
Fixpoint map_res {A B} (f : A -> res B) (l : list A) : res (list B) :=
  match l with [] => Ok [] | x :: l' => rbind (f x) (fun y => rbind (map_res f l') (fun t => Ok (y :: t))) end.
Definition max_abs (l : list R) : res R :=
  match l with [] => Err EValue | x :: l' => Ok (fold_left (fun m y => Rmax m (Rabs y)) l' (Rabs x)) end.
(** test_accuracy (interpolation.py:230-235, 374-379) *)
Definition test_accuracy (Xs Ys Ws nX nY : list R) : res R :=
  rbind (map_res (bary_at Xs Ys Ws) nX) (fun v => max_abs (map (fun p => fst p - snd p) (combine v nY))).
(** the loop of adaptive_interp (interpolation.py:203-229, 346-373): returns the final n, Xs, Ys and err; a
    bound maxn below the first n leaves err unassigned.  [fuel] bounds the recursion only. *)
Fixpoint adapt (fam : family) (f : R -> R) (p : mpar) (maxn : nat) (fuel n : nat) (Xs Ys : list R) (err : option R) (m : mon unit)
  : res (nat * list R * list R * R) :=
  if Nat.leb n maxn then
    match fuel with
    | O => Err ERuntime
    | S fuel' =>
        let nX := get_inc fam (grow fam n) in
        let nY := map f nX in
        rbind (test_accuracy Xs Ys (get_weights fam (length Xs)) nX nY) (fun e =>
        rbind (max_abs nY) (fun m1 => rbind (max_abs Ys) (fun m2 =>
        match mon_test p (mon_add m (e, Rmax m1 m2, tt)) with
        | (_, Err er) => Err er
        | (m', Ok Continue) => rbind (add_nodes fam Xs Ys nX nY) (fun q => adapt fam f p maxn fuel' (grow fam n) (fst q) (snd q) (Some e) m')
        | (_, Ok _) => Ok (n, Xs, Ys, e)
        end)))
    end
  else match err with None => Err EName | Some e => Ok (n, Xs, Ys, e) end.
(** construction: adaptive_init then adaptive_interp (interpolation.py:195-202, 239-243); n0 is 3, or 2 for nodes of
    the first kind (interpolation.py:342) *)
Definition adaptive (fam : family) (f : R -> R) (p : mpar) (maxn n0 : nat) : res (nat * list R * list R * R) :=
  rbind (get_nodes fam n0) (fun Xs => adapt fam f p maxn (S maxn) n0 Xs (map f Xs) None mon_init).
(** the finished interpolator as a function *)
Definition adaptive_fun (fam : family) (r : nat * list R * list R * R) (x : R) : res R :=
  let '(n, Xs, Ys, e) := r in bary_at Xs Ys (get_weights fam (length Xs)) x.
