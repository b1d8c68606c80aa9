(** Concrete instances for the theorems in PropIid.v. *)
From Coq Require Import Reals ZArith Lra Lia List.
From Verif Require Import Base Iid IidSpec PropIid.
Import List ListNotations.
Open Scope R_scope.

Example ex_iid_sum : iid_op nat (fun _ a b => Ok (a + b)%nat) true 3%nat 13 = (true, Ok (Some 39%nat)).
Proof. rewrite (iid_value nat Nat.add) by (auto; try lia; intros; lia). reflexivity. Qed.
Example ex_iid_copies : exists t, leaves t = 6%nat /\
  snd (iid_op nat (fun w a b => if w then Err EAssert else Ok (a - b)%nat) true 3%nat 6) = rmap Some (eval (fun a b => Ok (a - b)%nat) 3%nat t).
Proof. destruct (iid_copies nat (fun w a b => if w then Err EAssert else Ok (a - b)%nat) true 3%nat 6 ltac:(lia)) as (t & H1 & H2 & _). exists t. split; auto. Qed.
Example ex_iid_all : iid_op_all nat (fun _ a b => Ok (a + b)%nat) false 3%nat 4 = (false, Ok [3; 6; 9; 12]%nat).
Proof. rewrite (iid_all_value nat Nat.add) by (auto; try lia; intros; lia). reflexivity. Qed.
Example ex_iid_average : iid_average_all nat (fun _ a b => Ok (a + b)%nat) Nat.div true 3%nat 4 = (true, Ok [3; 3; 3; 3]%nat).
Proof. rewrite (iid_average_all_value nat Nat.add) by (auto; try lia; intros; lia). reflexivity. Qed.
