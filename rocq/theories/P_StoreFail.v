(** A model whose first hyper-parameter search fails. *)
From Coq Require Import List Bool Arith ZArith QArith Lia.
From Verif Require Import M_Base M_Store.
Import ListNotations.

Lemma failed_first m : sX (mS m) <> None -> sOpt (mS m) = false -> forall n f, let m1 := mstep m (MPredict (FailsInSearch None)) in
  data_of (mS m1) = data_of (mS m) /\ predict f (mrun m1 (repeat (MPredict Fits) n)) = (m1, Raise AttributeError).
Proof.
  intros HX HO n f. cbv zeta. assert (E1 : mstep m (MPredict (FailsInSearch None)) = mkModel (mGP m) (set_opt (mS m) true) None).
  { unfold mstep, predict, optimize. destruct (sX (mS m)) as [X|] eqn:EX; [|contradiction]. rewrite HO. reflexivity. }
  rewrite E1. assert (P : forall g, predict g (mkModel (mGP m) (set_opt (mS m) true) None) = (mkModel (mGP m) (set_opt (mS m) true) None, Raise AttributeError)).
  { intros g. unfold predict. cbn [mS]. destruct (mS m) as [] eqn:ES. cbn in HX |- *. destruct sX; [reflexivity|contradiction]. }
  split; [destruct (mS m); reflexivity|]. replace (mrun _ _) with (mkModel (mGP m) (set_opt (mS m) true) None); [apply P|].
  induction n as [|n IH]; [reflexivity|]. unfold mrun in *. cbn [repeat fold_left mstep]. rewrite P. exact IH.
Qed.
