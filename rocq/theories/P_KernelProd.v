(** Lemmas about the gradient matrices of products of kernels. *)
From Verif Require Import P_Base P_RBase P_Util S_Psd P_Psd P_Kernel P_KernelGrad.
From Coq Require Import Lra Lia.
From Verif Require Import M_RBase M_Util M_Kernel S_Psd S_Kernel.
Local Open Scope R_scope.

Lemma grad_shapes k X Y G : additive k -> kcov_grad k X Y = Ok (GTuple G) -> forall M, In M G -> shape (length X) (length Y) M.
Proof.
  revert G. induction k as [s l e|s sb c|s l p|s l e z|a IHa b IHb|a IHa b IHb]; cbn [additive]; intros G H; try tauto.
  - intros E M HM. cbn [kcov_grad] in E. injection E as <-. destruct HM as [<-|[<-|[]]]; apply shape_pairwise.
  - intros E M HM. cbn [kcov_grad] in E. injection E as <-. destruct HM as [<-|[<-|[<-|[]]]]; apply shape_pairwise.
  - destruct H as [Ha Hb]. destruct (kcov_grad_spec a X Y Ha) as [Ga [Ea _]]. destruct (kcov_grad_spec b X Y Hb) as [Gb [Eb _]].
    cbn [kcov_grad]. rewrite Ea, Eb. cbn [bind gadd]. intros E M HM. injection E as <-. apply in_app_iff in HM.
    destruct HM as [HM|HM]; [exact (IHa Ga Ha Ea M HM)|exact (IHb Gb Hb Eb M HM)].
Qed.
Lemma additive_no_zeroed k : additive k -> no_zeroed k.
Proof. induction k; cbn [additive no_zeroed]; tauto. Qed.
Lemma product_grad a b X Y : X <> [] -> additive a -> additive b -> length (kparam a) = length (kparam b) ->
  exists A B G, kcov a X Y = Ok A /\ kcov b X Y = Ok B /\ kcov_grad (KMul a b) X Y = Ok G /\ length (mats G) = length (kparam a) /\
    forall q i j ga gb, (q < length (kparam a))%nat -> (i < length X)%nat -> (j < length Y)%nat ->
      kgrad a (pt X i) (pt Y j) = Ok ga -> kgrad b (pt X i) (pt Y j) = Ok gb ->
      entry (nth q (mats G) nil) i j = nth q ga 0 * entry B i j + nth q gb 0 * entry A i j.
Proof.
  intros HX Ha Hb HL. destruct (kcov_spec a X Y HX) as [A [EA [SA _]]]; [left; now apply additive_no_zeroed|].
  destruct (kcov_spec b X Y HX) as [B [EB [SB _]]]; [left; now apply additive_no_zeroed|].
  destruct (kcov_grad_spec a X Y Ha) as [Ga [Ea [La Ka]]]. destruct (kcov_grad_spec b X Y Hb) as [Gb [Eb [Lb Kb]]].
  assert (Sa := grad_shapes a X Y Ga Ha Ea). assert (Sb := grad_shapes b X Y Gb Hb Eb).
  exists A, B. cbn [kcov_grad]. rewrite EA, EB, Ea, Eb. cbn [bind]. unfold gadd, gmul. cbn [mats]. rewrite !map_length.
  rewrite (proj2 (Nat.eqb_eq _ _)) by lia. eexists. split; [reflexivity|]. split; [reflexivity|]. split; [reflexivity|]. cbn [mats].
  split; [rewrite map_length, combine_length, !map_length; lia|].
  intros q i j ga gb Hq Hi Hj Fa Fb.
  rewrite (nth_indep _ nil (mat2 Rplus (fst (@nil (list R), @nil (list R))) (snd (@nil (list R), @nil (list R))))) by (rewrite map_length, combine_length, !map_length; lia).
  rewrite (map_nth (fun ab : matrix * matrix => mat2 Rplus (fst ab) (snd ab))), combine_nth by (rewrite !map_length; lia). cbn [fst snd].
  assert (E1 : nth q (map (fun G => mat2 Rmult G B) Ga) nil = mat2 Rmult (nth q Ga nil) B).
  { rewrite (nth_indep _ nil (mat2 Rmult nil B)) by (rewrite map_length; lia). now rewrite (map_nth (fun G => mat2 Rmult G B)). }
  assert (E2 : nth q (map (fun G => mat2 Rmult G A) Gb) nil = mat2 Rmult (nth q Gb nil) A).
  { rewrite (nth_indep _ nil (mat2 Rmult nil A)) by (rewrite map_length; lia). now rewrite (map_nth (fun G => mat2 Rmult G A)). }
  refine (eq_trans (f_equal2 (fun U V => entry (mat2 Rplus U V) i j) E1 E2) _). cbv beta. assert (S1 := Sa _ (@nth_In _ q Ga nil ltac:(lia))). assert (S2 := Sb _ (@nth_In _ q Gb nil ltac:(lia))).
  rewrite (entry_mat2 _ _ _ _ _ _ _ (shape_mat2 Rmult _ _ _ _ S1 SB) (shape_mat2 Rmult _ _ _ _ S2 SA) Hi Hj).
  rewrite (entry_mat2 _ _ _ _ _ _ _ S1 SB Hi Hj), (entry_mat2 _ _ _ _ _ _ _ S2 SA Hi Hj).
  rewrite (Ka q i j ga), (Kb q i j gb) by (auto; lia). reflexivity.
Qed.
