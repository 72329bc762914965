(** Property C74: a model whose first hyper-parameter search fails. *)
From Coq Require Import List Bool Arith ZArith QArith Lia.
From Verif Require Import M_Base M_Pareto M_Store P_StoreFail.
Import ListNotations.

(** the model counts as optimised without a fit: all later predictions raise, also where a fit would succeed, until data are added *)
Theorem C74_unfitted_refuted : forall m, sX (mS m) <> None -> sOpt (mS m) = false -> forall n f, let m1 := mstep m (MPredict (FailsInSearch None)) in
  data_of (mS m1) = data_of (mS m) /\ predict f (mrun m1 (repeat (MPredict Fits) n)) = (m1, Raise AttributeError).
Proof. exact failed_first. Qed.
Print Assumptions C74_unfitted_refuted.

(** ---- Examples ---- *)
Example C74_unfitted_ex : let m := mrun (new_model true false) [MStore (OAdd [[6#1; 6#1]] (LAbs [1#3]))] in
  snd (predict Fits m) = Ok (FromFit (data_of (mS m))) /\ snd (predict Fits (mrun m [MPredict (FailsInSearch None); MPredict Fits])) = Raise AttributeError.
Proof.
  split; [reflexivity|]. destruct (C74_unfitted_refuted (mrun (new_model true false) [MStore (OAdd [[6#1; 6#1]] (LAbs [1#3]))])) with (n := 1%nat) (f := Fits) as [_ E]; [discriminate|reflexivity|].
  change (mrun _ [MPredict (FailsInSearch None); MPredict Fits]) with (mrun (mstep (mrun (new_model true false) [MStore (OAdd [[6#1; 6#1]] (LAbs [1#3]))]) (MPredict (FailsInSearch None))) (repeat (MPredict Fits) 1)). rewrite E. reflexivity.
Qed.
