(** Model: interpolation on dense and sparse grids
    (pacal/bary_interp.pyx 104-173, pacal/depvars/sparse_grids.py 25-301). *)
From Coq Require Import Reals ZArith List Bool Arith.
From Verif Require Import Base Conv Comb Interp.
Import List ListNotations.
Open Scope R_scope.

(** ** The compiled dense-grid sum (bary_interp.pyx:104-173), one evaluation point *)
(** the loop over k from d-1 down to 0 that advances the index vector (bary_interp.pyx:150-155); it works on
    the reversed vector, the last index being the fastest, and stops at the first index that does not overflow *)
Fixpoint advance_rev (rms ridx : list nat) : list nat :=
  match rms, ridx with
  | m :: rms', i :: ridx' => if Nat.ltb (S i) m then S i :: ridx' else O :: advance_rev rms' ridx'
  | _, _ => []
  end.
Definition advance (ms idx : list nat) : list nat := rev (advance_rev (rev ms) (rev idx)).
(** temp = fs[idx] * tables[0][nd_idx[0]] * tables[1][nd_idx[1]] * ... (bary_interp.pyx:142-147) *)
Definition grid_temp (tables : list (list R)) (idx : list nat) (v : R) : R :=
  fold_left (fun t p => t * nth (snd p) (fst p) 0) (combine tables idx) v.
(** the loop over the grid points (bary_interp.pyx:141-156) *)
Fixpoint dense_loop (tables : list (list R)) (idx : list nat) (num : R) (fs : list R) : R :=
  match fs with
  | [] => num
  | v :: fs' => dense_loop tables (advance (map (@length R) tables) idx) (num + grid_temp tables idx v) fs'
  end.
(** the index vectors visited, in order *)
Fixpoint visited (ms idx : list nat) (n : nat) : list (list nat) :=
  match n with O => [] | S n' => idx :: visited ms (advance ms idx) n' end.
(** c_dense_grid_interp: the table of column pointers is allocated with room for M = len(fs) entries and
    written at 0..d-1 (bary_interp.pyx:119-124), so d > M writes outside it; an empty list of tables raises
    (bary_interp.pyx:110) *)
Definition c_dense (tables : list (list R)) (fs : list R) : res R :=
  match tables with
  | [] => Err EIndex
  | _ => if Nat.ltb (length fs) (length tables) then Err ERuntime
         else Ok (dense_loop tables (repeat O (length tables)) 0 fs)
  end.

(** ** Sparse grids (sparse_grids.py) *)
(** itertools.product *)
Fixpoint product {A} (ls : list (list A)) : list (list A) :=
  match ls with [] => [[]] | l :: ls' => flat_map (fun x => map (cons x) (product ls')) l end.
(** gen_partitions (sparse_grids.py:25-33); range(1,d).  With nd = 0 the recursion runs into nd = -1, -2, ...
    and d - x until the range is empty, and returns the empty list. *)
Fixpoint gen_partitions (nd d : nat) : list (list nat) :=
  match nd with
  | O => []
  | S nd' => match nd' with
             | O => [[d]]
             | _ => flat_map (fun x => map (cons x) (gen_partitions nd' (d - x))) (seq 1 (d - 1))
             end
  end.
(** gen_Q (sparse_grids.py:35-44); range(q-d+1, q+1) *)
Definition gen_Q (q d : nat) : res (list (list nat)) :=
  if Nat.leb d q then Ok (flat_map (gen_partitions d) (seq (q - d + 1) d)) else Err EAssert.

(** one entry of each of the parallel caches exps, cheb_weights_cache and xroot_cache[0..d-1], which are
    always appended to together (sparse_grids.py:73-83, 96-104); the weights are computed by the same
    statements (sparse_grids.py:46-51) as in interpolation.py:244-248 *)
Record level := Level { lv_n : nat; lv_w : list R; lv_x : list (list R) }.
Definition new_level (box : list (R * R)) (ni : nat) : res level :=
  rmap (fun xs => Level ni (cheb_weights ni) xs) (map_res (fun ab => cheb_nodes ni (fst ab) (snd ab)) box).
Definition no_level : level := Level 0 [] [].

(** range(0, top, step) *)
Definition range_step (top step : nat) : list nat := map (fun k => k * step)%nat (seq 0 ((top + (step - 1)) / step)).
Definition tuple_eqb (s t : list nat) : bool := if list_eq_dec Nat.eq_dec s t then true else false.
(** the dictionary from nodes to positions *)
Fixpoint find_index (t : list nat) (l : list (list nat)) : option nat :=
  match l with [] => None | u :: l' => if tuple_eqb t u then Some O else option_map S (find_index t l') end.
(** one node of a subgrid (sparse_grids.py:177-184) *)
Definition add_node (st : list (list nat) * list nat) (t : list nat) : list (list nat) * list nat :=
  match find_index t (fst st) with
  | Some i => (fst st, snd st ++ [i])
  | None => (fst st ++ [t], snd st ++ [length (fst st)])
  end.
(** the node indices of one subgrid (sparse_grids.py:166-173, the branch for init_ni = 11) *)
Definition sub_nodes (levels : list level) (maxq : nat) (p : list nat) : list (list nat) :=
  product (map (fun e => range_step (lv_n (nth maxq levels no_level)) (2 ^ (maxq - e))) p).
(** the subgrid's coefficient (sparse_grids.py:186-187); q - si is never negative *)
Definition sub_coeff (q d : nat) (p : list nat) : R :=
  let k := (q - list_sum p)%nat in (-1) ^ k * binomial_coeff (Z.of_nat d - 1) (Z.of_nat k).
(** get_nodes (sparse_grids.py:159-194): all nodes, and for every subgrid (its partition is the key of the
    dictionary, kept in order of insertion) the coefficient and the positions of its nodes *)
Definition subgrid := (list nat * (R * list nat))%type.
Definition node_step (levels : list level) (q d : nat) (st : list (list nat) * list subgrid) (p : list nat)
  : list (list nat) * list subgrid :=
  let r := fold_left add_node (sub_nodes levels (q - d + 1) p) (fst st, []) in
  (fst r, snd st ++ [(p, (sub_coeff q d p, snd r))]).
Definition sg_nodes (levels : list level) (q d : nat) : res (list (list nat) * list subgrid) :=
  rmap (fun ps => fold_left (node_step levels q d) ps ([], [])) (gen_Q q d).

(** the coordinates of a node: xroot_cache[j][lv][n[j]] for j = 0..d-1 (sparse_grids.py:86, 111) *)
Definition coords (lv : level) (t : list nat) : list R := map (fun p => nth (snd p) (fst p) 0) (combine (lv_x lv) t).

(** ** Evaluation (sparse_grids.py:196-301), one point *)
(** the row of Ws/(x - Xs), or the indicator of the node hit (sparse_grids.py:230-240, 272-282) *)
Definition bary_row (Xs Ws : list R) (x : R) : list R :=
  if existsb (fun xi => req (x - xi) 0) Xs then map (fun xi => if req (x - xi) 0 then 1 else 0) Xs
  else map (fun p => snd p / (x - fst p)) (combine Xs Ws).
Definition dot (l m : list R) : R := sum_list (mul_lists l m).
(** fs.reshape(-1, m) as a list of rows *)
Fixpoint chunks (k m : nat) (l : list R) : list (list R) :=
  match k with O => [] | S k' => firstn m l :: chunks k' m (skipn m l) end.
(** contraction of the last axis with a row, divided by the sum of the row; a zero sum is an error
    (numpy would continue with inf or nan) *)
Definition contract (row fs : list R) : res (list R) :=
  let den := sum_list row in
  if req den 0 then Err EZeroDiv
  else Ok (map (fun c => dot c row / den) (chunks (length fs / length row) (length row) fs)).
(** the loop over the axes, last axis first (sparse_grids.py:264-300) *)
Fixpoint contract_all (rows_rev : list (list R)) (fs : list R) : res (list R) :=
  match rows_rev with [] => Ok fs | row :: rs => rbind (contract row fs) (contract_all rs) end.
(** the row of axis i at level e *)
Definition axis_row (levels : list level) (x : list R) (ie : nat * nat) : list R :=
  let lv := nth (snd ie) levels no_level in bary_row (nth (fst ie) (lv_x lv) []) (lv_w lv) (nth (fst ie) x 0).
Definition axes (p : list nat) : list (nat * nat) := combine (seq 0 (length p)) p.
(** full_grid_interp_new; the cache fg_cache only avoids recomputing the rows *)
Definition full_grid_new (levels : list level) (p : list nat) (fs x : list R) : res R :=
  rbind (contract_all (map (axis_row levels x) (rev (axes p))) fs)
        (fun r => match r with y :: _ => Ok y | [] => Err EIndex end).
(** full_grid_interp with the compiled sum (sparse_grids.py:219-259) *)
Definition full_grid (levels : list level) (p : list nat) (fs x : list R) : res R :=
  let rows := map (axis_row levels x) (axes p) in
  rbind (c_dense rows fs) (fun num =>
    let den := fold_left (fun d row => d * sum_list row) rows 1 in
    if req den 0 then Err EZeroDiv else Ok (num / den)).
(** interp_at (sparse_grids.py:196-217) *)
Definition interp_at (levels : list level) (sub : list subgrid) (Ys x : list R) : res R :=
  fold_left (fun acc (s : subgrid) =>
    rbind acc (fun y => rbind (full_grid_new levels (fst s) (map (fun i => nth i Ys 0) (snd (snd s))) x)
                              (fun yi => Ok (y + fst (snd s) * yi)))) sub (Ok 0).

(** ** Adaptive refinement (sparse_grids.py:62-143) *)
Record sgrid := SGrid { g_q : nat; g_ni : nat; g_levels : list level; g_nodes : list (list nat);
                        g_sub : list subgrid; g_Ys : list R }.
(** adaptive_init (sparse_grids.py:62-87): q = d, two levels are appended after the entry None *)
Fixpoint add_levels (box : list (R * R)) (k : nat) (ni : nat) (levels : list level) : res (nat * list level) :=
  match k with
  | O => Ok (ni, levels)
  | S k' => rbind (new_level box ni) (fun lv => add_levels box k' (if Nat.eqb ni 1 then 3 else ni * 2 - 1)%nat (levels ++ [lv]))
  end.
Definition sg_init (f : list R -> R) (box : list (R * R)) : res sgrid :=
  let d := length box in
  rbind (add_levels box (d - d + 1 + 1) 11 [no_level]) (fun nl =>
  rbind (sg_nodes (snd nl) d d) (fun ns =>
    Ok (SGrid d (fst nl) (snd nl) (fst ns) (snd ns)
              (map (fun t => f (coords (nth (d - d + 1) (snd nl) no_level) t)) (fst ns))))).
(** the value at a node of the refined grid (sparse_grids.py:131-139): the stored value if the node was
    present before, the new value otherwise *)
Definition new_value (old inc : list (list nat)) (Ys incYs : list R) (t : list nat) : res R :=
  match find_index t inc, find_index t old with
  | Some i, _ => Ok (nth i incYs 0)
  | None, Some i => Ok (nth i Ys 0)
  | None, None => Err EName
  end.
(** one pass of the loop of adaptive_interp (sparse_grids.py:96-143): the grid and whether to go on (the branch
    for ni = 1 cannot be reached, the first ni being 11).  The
    new nodes are sorted in the code before the function is evaluated on them; the order is irrelevant here. *)
Definition sg_step (f : list R -> R) (box : list (R * R)) (par : mpar) (g : sgrid) (m : mon unit)
  : res (sgrid * mon unit * bool) :=
  let d := length box in
  rbind (new_level box (g_ni g)) (fun lv =>
  let levels := g_levels g ++ [lv] in
  let ni := (g_ni g * 2 - 1)%nat in
  let q := (g_q g + 1)%nat in
  rbind (sg_nodes levels q d) (fun ns =>
  let old := map (map (fun i => 2 * i)%nat) (g_nodes g) in
  let inc := filter (fun t => negb (existsb (tuple_eqb t) old)) (fst ns) in
  let incX := map (coords (nth (q - d + 1) levels no_level)) inc in
  let incY := map f incX in
  rbind (map_res (interp_at levels (g_sub g) (g_Ys g)) incX) (fun v =>
  rbind (max_abs (map (fun p => fst p - snd p) (combine v incY))) (fun err =>
  rbind (max_abs incY) (fun m1 => rbind (max_abs (g_Ys g)) (fun m2 =>
  match mon_test par (mon_add m (err, Rmax m1 m2, tt)) with
  | (_, Err er) => Err er
  | (m', Ok Continue) =>
      rbind (map_res (new_value old inc (g_Ys g) incY) (fst ns)) (fun Ys =>
      Ok (SGrid q ni levels (fst ns) (snd ns) Ys, m', true))
  | (m', Ok _) => Ok (SGrid (g_q g) (g_ni g) levels (g_nodes g) (g_sub g) (g_Ys g), m', false)
  end)))))).
(** while q <= maxq; [fuel] bounds the recursion only *)
Fixpoint sg_loop (f : list R -> R) (box : list (R * R)) (par : mpar) (maxq fuel : nat) (g : sgrid) (m : mon unit) : res sgrid :=
  if Nat.leb (g_q g) maxq then
    match fuel with
    | O => Err ERuntime
    | S fuel' => rbind (sg_step f box par g m) (fun r =>
        match r with (g', m', true) => sg_loop f box par maxq fuel' g' m' | (g', _, false) => Ok g' end)
    end
  else Ok g.
(** AdaptiveSparseGridInterpolator(f, d, a, b) (sparse_grids.py:55-61) and its value at a point *)
Definition sg_make (f : list R -> R) (box : list (R * R)) (par : mpar) (maxq : nat) : res sgrid :=
  rbind (sg_init f box) (fun g => sg_loop f box par maxq (S maxq) g mon_init).
Definition sg_value (g : sgrid) (x : list R) : res R := interp_at (g_levels g) (g_sub g) (g_Ys g) x.
