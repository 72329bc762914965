(** Property C176: line searches and missing values of the objective *)
From Coq Require Import Reals Lra Lia List.
From Verif Require Import M_Base M_RBase M_Float M_Search M_LineNaN S_LineNaN P_LineNaN.
Import ListNotations.
Local Open Scope R_scope.

(** the returned step is one of the last two steps examined, and the better one unless a value is missing *)
Theorem C176_examined : forall phi n lo hi, lo < hi -> exists a b, lo <= a /\ a < b /\ b <= hi /\ b - a = (hi - lo) / 2 ^ n /\
  let l1 := a + (b - a) / 4 in let l2 := a + 3 * (b - a) / 4 in
  (binary_search_x phi lo hi (S n) = l1 /\ phi l1 <> NaN /\ phi l2 <> NaN /\ notabove (phi l2) (phi l1)) \/ (binary_search_x phi lo hi (S n) = l2 /\ (phi l1 <> NaN -> phi l2 <> NaN -> notabove (phi l1) (phi l2))).
Proof.
exact last_pair.
Qed.
Print Assumptions C176_examined.
(** when the objective is minus infinity beyond some step, and a number a quarter of the way, the returned step has a number *)
Theorem C176_inside : forall phi t n, until phi t NInf -> forall lo hi, lo < hi -> lo + (hi - lo) / 4 <= t -> binary_search_x phi lo hi (S n) <= t.
Proof.
exact stays_inside.
Qed.
Print Assumptions C176_inside.
(** refuted: shorter steps are tried when the objective is minus infinity; the search goes to the longest one *)
Theorem C176_short_steps_refuted : forall phi t n lo hi, until phi t NInf -> lo < hi -> t < lo + (hi - lo) / 4 -> binary_search_x phi lo hi n = hi - (hi - lo) / 2 ^ S n.
Proof.
exact too_far.
Qed.
Print Assumptions C176_short_steps_refuted.
(** refuted: steps with a missing value are avoided; already one missing value at three quarters makes the search go there *)
Theorem C176_missing_refuted : forall phi t n lo hi, until phi t NaN -> lo < hi -> t < lo + 3 * (hi - lo) / 4 -> binary_search_x phi lo hi n = hi - (hi - lo) / 2 ^ S n.
Proof.
exact nan_right.
Qed.
Print Assumptions C176_missing_refuted.
Theorem C176_end : forall lo hi n, lo < hi -> (0 < n)%nat -> lo + 3 * (hi - lo) / 4 <= hi - (hi - lo) / 2 ^ S n < hi.
Proof.
exact right_end.
Qed.
Print Assumptions C176_end.
(** the Newton update then leaves a vector with an objective for one without, although the whole step has an objective *)
Theorem C176_newton_refuted : forall n, exists F descent loss F', newton_update_x F descent loss Binary (S n) = Ok F' /\ loss F' = NaN /\ (exists x, loss F = Fin x) /\
  forall lam, 0 <= lam <= 1 -> exists x, loss (step_from F descent lam) = Fin x.
Proof.
exact newton_missing.
Qed.
Print Assumptions C176_newton_refuted.
(** the search on a grid returns the best step that has a value, and fails only when no step has one *)
Theorem C176_iterative : forall phi lo hi n, -1 < lo -> lo <= hi -> n <> 0%nat ->
  match iterative_search_x phi lo hi n with
  | Ok lam => In lam (arange lo hi n) /\ phi lam <> NaN /\ phi lam <> NInf /\ forall x, In x (arange lo hi n) -> phi x <> NaN -> notabove (phi x) (phi lam)
  | Raise e => e = GenericException /\ forall x, In x (arange lo hi n) -> phi x = NaN \/ phi x = NInf
  end.
Proof.
exact iter_spec.
Qed.
Print Assumptions C176_iterative.
Theorem C176_iterative_inside : forall phi t v lo hi n, -1 < lo -> lo <= hi -> n <> 0%nat -> until phi t v -> v = NaN \/ v = NInf -> lo <= t -> exists lam x, iterative_search_x phi lo hi n = Ok lam /\ lam <= t /\ phi lam = Fin x.
Proof.
exact iter_inside.
Qed.
Print Assumptions C176_iterative_inside.
(** for numbers and minus infinity the searches are those of the other properties *)
Theorem C176_same : forall phi psi, plain phi psi -> (forall n lo hi, binary_search_x phi lo hi n = binary_line_search psi lo hi n) /\ forall lo hi n, iterative_search_x phi lo hi n = iterative_line_search psi lo hi n.
Proof.
exact (fun phi psi P => conj (fun n => plain_binary phi psi n P) (fun lo hi n => plain_iter phi psi lo hi n P)).
Qed.
Print Assumptions C176_same.
(** and so are Newton updates with every rule for the step, unknown rules included *)
Theorem C176_newton_same : forall F d loss loss' t n, plain (fun lam => loss (step_from F d lam)) (fun lam => loss' (step_from F d lam)) -> newton_update_x F d loss t n = newton_update F d loss' t n.
Proof.
exact newton_plain.
Qed.
Print Assumptions C176_newton_same.
(** an unknown rule is refused whatever the objective; the rule "static" fails too *)
Theorem C176_rules : forall F d loss n, newton_update_x F d loss Other n = Raise ValueError /\ newton_update_x F d loss Static n = Raise AttributeError.
Proof.
exact newton_refused.
Qed.
Print Assumptions C176_rules.

(** ---- examples ---- *)
Definition ex_until (t : R) (v : fval) (lam : R) : fval := if Rle_dec lam t then Fin lam else v.
Example C176_until_example : forall t v, until (ex_until t v) t v.
Proof. intros t v. split; intros lam L; unfold ex_until; destruct (Rle_dec lam t); try lra; eauto. Qed.
Example C176_inside_example : binary_search_x (ex_until 1 NInf) 0 (15 / 10) 5 <= 1.
Proof. apply (C176_inside _ 1 4 (C176_until_example 1 NInf)); lra. Qed.
(** a fifth of the way is fine, longer steps have the objective minus infinity: the last step is taken *)
Example C176_short_steps_example : binary_search_x (ex_until (2 / 10) NInf) 0 (15 / 10) 5 = 15 / 10 - 15 / 10 / 64 /\ ex_until (2 / 10) NInf (binary_search_x (ex_until (2 / 10) NInf) 0 (15 / 10) 5) = NInf.
Proof.
  assert (E : binary_search_x (ex_until (2 / 10) NInf) 0 (15 / 10) 5 = 15 / 10 - 15 / 10 / 64) by (rewrite (C176_short_steps_refuted _ (2 / 10) 5 0 (15 / 10) (C176_until_example _ _)) by lra; field).
  split; [exact E|]. rewrite E. apply (proj2 (C176_until_example (2 / 10) NInf)). lra.
Qed.
(** the full Newton step is fine, the step 1.125 is not: the step 1.4765625 is taken *)
Example C176_missing_example : binary_search_x (ex_until 1 NaN) 0 (15 / 10) 5 = 15 / 10 - 15 / 10 / 64 /\ ex_until 1 NaN (binary_search_x (ex_until 1 NaN) 0 (15 / 10) 5) = NaN.
Proof.
  assert (E : binary_search_x (ex_until 1 NaN) 0 (15 / 10) 5 = 15 / 10 - 15 / 10 / 64) by (rewrite (C176_missing_refuted _ 1 5 0 (15 / 10) (C176_until_example _ _)) by lra; field).
  split; [exact E|]. rewrite E. apply (proj2 (C176_until_example 1 NaN)). lra.
Qed.
Example C176_iterative_example : exists lam x, iterative_search_x (ex_until 1 NaN) (1 / 100) (15 / 10) 10 = Ok lam /\ lam <= 1 /\ ex_until 1 NaN lam = Fin x.
Proof. apply (C176_iterative_inside (ex_until 1 NaN) 1 NaN); [lra|lra|discriminate|apply C176_until_example|now left|lra]. Qed.
Example C176_same_example : plain (ex_until 1 NInf) (fun lam => if Rle_dec lam 1 then Some lam else None).
Proof. intro lam. unfold ex_until. destruct (Rle_dec lam 1); reflexivity. Qed.
Example C176_newton_same_example : newton_update_x [0; 2] [1; 3] (fun F => ex_until 1 NInf (nth 0 F 0)) Iter 10 = newton_update [0; 2] [1; 3] (fun F => if Rle_dec (nth 0 F 0) 1 then Some (nth 0 F 0) else None) Iter 10.
Proof. apply C176_newton_same. intro lam. apply C176_same_example. Qed.
