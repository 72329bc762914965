(** The tuning objective in binary64 against the exact one. *)
From Coq Require Import Reals ZArith Lra Lia List Bool Permutation.
From Flocq Require Import Core.
From Verif Require Import M_Base M_RBase M_Normal M_User M_Float M_FloatProbit M_FloatPer M_FloatTune S_User S_Float P_RBase P_Float P_FloatTune P_User2 P_User4.
Import ListNotations.
Local Open Scope R_scope.

Lemma miss_one : miss_fl b64 (Fin 1) 1 = Fin 0.
Proof.
  unfold miss_fl, fsub. cbn [fneg fadd]. replace (1 + - (1)) with 0 by lra. destruct (rnd_unit b64 R64 0) as [-> _]; [lra|]. rewrite (rd_0 b64 R64). cbn [fmul].
  rewrite Rmult_0_l. destruct (rnd_unit b64 R64 0) as [-> _]; [lra|]. now rewrite (rd_0 b64 R64).
Qed.
Lemma target_one sm : sums b64 sm -> obj_fl b64 sm 54 [1] 1 = Fin 0 /\ obj_fl b64 sm 60 [1] 1 = Fin 0 /\
  exists x y, obj 54 [1] 1 = Some x /\ obj 60 [1] 1 = Some y /\ 0 < y < x.
Proof.
  intros Hsm. destruct (pair_flat sm 54 60 [1] 1 Hsm) as [E1 E2]; [lra|lra|discriminate|cbn; lia| |].
  - intros d [<- |[]]. rewrite Rabs_R1. lra.
  - rewrite E1, E2, miss_one. split; [reflexivity|]. split; [reflexivity|].
    assert (I : Forall (informative 54) [1]).
    { constructor; [|constructor]. unfold informative, pair_probability. rewrite Rabs_R1, Rmult_1_l. assert (55 < exp 54) by (assert (K := exp_ineq1 54); lra).
      set (t := exp 54) in *. clearbody t. apply (Rmult_le_reg_r (1 + t)); [lra|]. replace (t / (1 + t) * (1 + t)) with t by (field; lra). lra. }
    assert (I2 : Forall (informative 60) [1]) by (apply (informative_up 54); [lra|exact I]).
    do 2 eexists. split; [apply pair_value; [discriminate|exact I]|]. split; [apply pair_value; [discriminate|exact I2]|].
    assert (L := pair_rises 54 60 [1] ltac:(discriminate) I ltac:(lra)). unfold avg in L.
    pose proof (luce2_range 54 1). pose proof (luce2_range 60 1). cbn [map rsum length INR] in *.
    set (a := pair_probability 54 1) in *. set (c := pair_probability 60 1) in *. clearbody a c.
    replace ((a + 0) / 1) with a in * by field. replace ((c + 0) / 1) with c in * by field. nra.
Qed.
