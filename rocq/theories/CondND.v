(** Model: conditional densities of a joint density (ConditionalDistr, pacal/depvars/nddistr.py:635-659) and the
    default NDDistr.condition (nddistr.py:286-309).  Functions are called with arrays, one element is modelled
    ([nd_point] of ND.v); interpolation is exact as in ND.v.  Variables are given by themselves, their positions are
    found as in prepare_var. *)
From Coq Require Import Reals List Bool Arith.
From Verif Require Import Base ND.
Import List ListNotations.
Open Scope R_scope.

(** the positions not listed, in increasing order (c_var of prepare_var, nddistr.py:112) *)
Definition others (d : nat) (idx : list nat) : list nat := filter (fun i => negb (existsb (Nat.eqb i) idx)) (seq 0 d).
(** a factor called with an argument vector: NDFun.__call__ (nddistr.py:75-98).  With too many arguments a[i] raises
    IndexError; with too few the wrapped function raises, which is modelled by the same error. *)
Definition f_call (g : factor) (X : list R) : res R :=
  if Nat.eqb (length X) (length (f_vars g)) then
    Ok (match g with FDens F => nd_point F X | FConst c => c | FOne => 1 end)
  else Err EIndex.

Section CondND.
Variable integ : (R -> R) -> R -> R -> R.   (* integrate_fejer2(f, a, b)[0] *)
Variable lo hi : nat -> R.                  (* range() of a variable *)

(** the joint density, the positions of the condition variables and the marginal density *)
Record cdistr := CD { cd_nd : ndfun; cd_cond : list nat; cd_marg : factor }.
(** the constructor (nddistr.py:636-643); [None] for marg=None *)
Definition cd_make (F : ndfun) (cv : list nat) (marg : option factor) : res cdistr :=
  rbind (positions cv (nd_vars F)) (fun idx =>
    match marg with
    | Some m => Ok (CD F idx m)
    | None => rbind (nd_elim_rev integ lo hi F (rev (others (length (nd_vars F)) idx))) (fun m => Ok (CD F idx m))
    end).
(** pdf (nddistr.py:644-645); a zero marginal has no quotient *)
Definition cd_pdf (C : cdistr) (X : list R) : res R :=
  rbind (f_call (cd_marg C) (map (fun i => nth i X 0) (cd_cond C))) (fun m =>
    if req m 0 then Err EZeroDiv else Ok (nd_point (cd_nd C) X / m)).
(** __call__ of the object: zero outside the box of its variables, which are those of the joint density *)
Definition cd_point (C : cdistr) (X : list R) : res R :=
  let vars := nd_vars (cd_nd C) in
  if inside X (map lo vars) (map hi vars) then cd_pdf C X else Ok 0.
(** eliminate (nddistr.py:646-652): [inl] is NDOneFactor *)
Definition same_set (l l' : list nat) : bool :=
  forallb (fun i => existsb (Nat.eqb i) l') l && forallb (fun i => existsb (Nat.eqb i) l) l'.
Definition cd_elim (C : cdistr) (vs : list nat) : res (factor + cdistr) :=
  let F := cd_nd C in
  rbind (positions vs (nd_vars F)) (fun var =>
    if same_set (others (length (nd_vars F)) var) (cd_cond C) then Ok (inl FOne)
    else if existsb (fun i => existsb (Nat.eqb i) (cd_cond C)) var then Err ERuntime
    else rbind (nd_elim_rev integ lo hi F (rev var)) (fun g =>
      match g with
      | FDens G => rmap inr (cd_make G (map (fun i => nth i (nd_vars F) O) (cd_cond C)) None)
      | _ => Err ERuntime                       (* a constant has no variable *)
      end)).
(** the argument vector made of the fixed and the free coordinates (_cond_f, nddistr.py:274-280) *)
Fixpoint lookup (i : nat) (idx : list nat) (X : list R) : option R :=
  match idx, X with j :: idx', x :: X' => if Nat.eqb i j then Some x else lookup i idx' X' | _, _ => None end.
Definition cond_args (d : nat) (var : list nat) (Xc : list R) (c_var : list nat) (Xf : list R) : list R :=
  map (fun i => match lookup i c_var Xf with Some x => x | None => match lookup i var Xc with Some x => x | None => 0 end end) (seq 0 d).
(** the range test of every value (nddistr.py:291-293) *)
Definition in_ranges (vars : list nat) (var : list nat) (X : list R) : bool :=
  forallb (fun p => rle (lo (nth (fst p) vars O)) (snd p) && rle (snd p) (hi (nth (fst p) vars O))) (combine var X).
(** NDDistr.condition with normalize=True (nddistr.py:286-309); [f.Ys /= nrm] divides the values.  Fewer values than
    variables raise IndexError in the range test, more values fail the assertion on the lengths. *)
Definition nd_cond (F : ndfun) (vs : list nat) (X : list R) : res factor :=
  rbind (positions vs (nd_vars F)) (fun var =>
    let c_var := others (length (nd_vars F)) var in
    let cvs := map (fun i => nth i (nd_vars F) O) c_var in
    if Nat.ltb (length X) (length var) then Err EIndex else
    if negb (in_ranges (nd_vars F) var X) then Err EAssert else
    match c_var with
    | [] => Ok FOne
    | _ =>
      if negb (Nat.eqb (length X) (length var)) then Err EAssert else
      let h := fun Xf => nd_point F (cond_args (length (nd_vars F)) var X c_var Xf) in
      let u := interpolated lo hi cvs h in
      rbind (nd_elim_rev integ lo hi u (rev (seq 0 (length c_var)))) (fun n =>
        match n with
        | FConst nrm => if req nrm 0 then Err EZeroDiv else Ok (FDens (interpolated lo hi cvs (fun Xf => h Xf / nrm)))
        | _ => Err ERuntime
        end)
    end).
(** condition of the conditional density (nddistr.py:653-659): the old marginal density is passed on.  The new
    condition variables come out of a set of small integers, which Python lists in increasing order. *)
Definition cd_condition (C : cdistr) (vs : list nat) (X : list R) : res (factor + cdistr) :=
  let F := cd_nd C in
  rbind (positions vs (nd_vars F)) (fun var =>
    let new_cond := filter (fun i => existsb (Nat.eqb i) (cd_cond C) && negb (existsb (Nat.eqb i) var)) (seq 0 (length (nd_vars F))) in
    match new_cond with
    | [] => rmap inl (nd_cond F vs X)
    | _ => rbind (nd_cond F vs X) (fun g =>
             match g with
             | FDens G => rmap inr (cd_make G (map (fun i => nth i (nd_vars F) O) new_cond) (Some (cd_marg C)))
             | _ => Err ERuntime                (* a constant has no variable *)
             end)
    end).
End CondND.
