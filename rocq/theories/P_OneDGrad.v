(** Lemmas about kernel gradients of plain numbers. *)
From Coq Require Import Reals Lra Lia List.
From Verif Require Import M_Base M_RBase M_Kernel M_OneD M_OneDGrad S_OneD P_OneD.
Import ListNotations.
Local Open Scope R_scope.

Lemma rbf_grad_arr_same d s l X Y : holds d X -> holds d Y -> rbf_grad_arr s l X Y = Ok (rbf_cov_grad s l (arr_rows X) (arr_rows Y)).
Proof. intros HX HY. unfold rbf_grad_arr. rewrite (bcast_same d X Y HX HY). reflexivity. Qed.
Lemma bind_same {A B} (m : result A) (f g : A -> result B) : (forall a, f a = g a) -> bind m f = bind m g.
Proof. intros H; destruct m; cbn; auto. Qed.
Lemma zero_grad_arr_same d s l n i z X Y : (i < 2)%nat -> length z = d -> holds d X -> holds d Y ->
  zero_grad_arr s l n i z X Y = zero_cov_grad s l n i z (arr_rows X) (arr_rows Y).
Proof.
  intros Hi Hz HX HY. pose proof (holds_row d z Hz) as HZ. unfold zero_grad_arr, zero_cov_grad. cbv zeta.
  rewrite (rbf_cov_arr_same d _ _ _ _ _ HX HZ), (rbf_cov_arr_same d _ _ _ _ _ HZ HY), (rbf_grad_arr_same d _ _ _ _ HX HZ), (rbf_grad_arr_same d _ _ _ _ HZ HY).
  cbn [arr_rows]. apply bind_same; intros cx. apply bind_same; intros cy. apply bind_same; intros ry. cbn [bind].
  assert (E1 : map (hd 0) (nth i (rbf_cov_grad s l (arr_rows X) [z]) []) = map (fun x => nth i (rbf_grad s l x z) 0) (arr_rows X)).
  { destruct i as [|[|i]]; [| |lia]; unfold rbf_cov_grad, pairwise; cbn [nth]; rewrite map_map; reflexivity. }
  assert (E2 : hd [] (nth i (rbf_cov_grad s l [z] (arr_rows Y)) []) = map (fun y => nth i (rbf_grad s l z y) 0) (arr_rows Y)).
  { destruct i as [|[|i]]; [| |lia]; unfold rbf_cov_grad, pairwise; cbn [nth map hd]; reflexivity. }
  match goal with |- Ok (map (fun gr => map _ (combine _ ?b)) (combine ?a _)) = Ok (map (fun gr => map _ (combine _ ?b')) (combine ?a' _)) =>
    replace a with a' by (symmetry; exact E1); replace b with b' by (symmetry; exact E2) end. reflexivity.
Qed.

Lemma kgrad_at_same d X Y : holds d X -> holds d Y -> forall k t k', zeros_fit d k -> filled d k t -> filled d k k' ->
  filled d k (fst (kgrad_at t k' X Y)) /\ snd (kgrad_at t k' X Y) = kcov_grad k (arr_rows X) (arr_rows Y).
Proof.
  intros HX HY; induction k as [s l n|s sb c|s l p|s l n z|a IHa b IHb|a IHa b IHb]; intros t k' Hz Ht Hf.
  - cbn in Ht, Hf; subst k' t; split; [reflexivity|]. cbn [kgrad_at snd kcov_grad]. rewrite (rbf_grad_arr_same d _ _ _ _ HX HY). reflexivity.
  - cbn in Ht, Hf; subst k' t; split; [reflexivity|]. cbn [kgrad_at snd]. rewrite (bcast_same d X Y HX HY); reflexivity.
  - cbn in Ht, Hf; subst k' t; split; [reflexivity|]. cbn [kgrad_at snd]. rewrite (bcast_same d X Y HX HY); reflexivity.
  - destruct k' as [| | |s' l' n' z'| |]; cbn in Hf; try contradiction.
    destruct t as [| | |ts tl tn tz| |]; cbn in Ht; try contradiction.
    destruct Hf as (<- & <- & <- & Hzz).
    assert (Hw : forall w, z = Some w -> length w = d) by (intros w ->; exact Hz).
    assert (Hw' : forall w, z' = Some w -> length w = d).
    { intros w ->. destruct Hzz as [E|[_ E]]; [apply Hw; congruence|]. injection E as ->. apply repeat_length. }
    cbn [kgrad_at kcov_grad].
    destruct (lazy_zero_spec d z' X HX Hw') as [(x0 & E & E1 & Hl & Hn)|[E E1]]; rewrite E1.
    + assert (Ez : zero_of z' x0 = zero_of z x0).
      { destruct Hzz as [->|[-> ->]]; [reflexivity|]. cbn. f_equal.
        destruct HX as [HX HF]. destruct (arr_rows X) as [|r M]; [discriminate|]. injection E as ->. symmetry; exact (Forall_inv HF). }
      cbn [fst snd]; split.
      * cbn [filled]; repeat split; auto. destruct z as [z|].
        -- left. destruct Hzz as [->|[H _]]; [reflexivity|discriminate].
        -- right; split; [reflexivity|]. rewrite Ez. cbn. f_equal. f_equal. destruct HX as [HX HF].
           destruct (arr_rows X) as [|r M]; [discriminate|]. injection E as ->. exact (Forall_inv HF).
      * rewrite E; cbn [bind]. rewrite (rbf_grad_arr_same d _ _ _ _ HX HY). cbn [bind].
        rewrite !(zero_grad_arr_same d) by (auto; lia). rewrite Ez. reflexivity.
    + cbn [fst snd]; rewrite E; split; [|reflexivity]. cbn; auto.
  - destruct k' as [| | | |a' b'|]; cbn in Hf; try contradiction. destruct Hf as [Ha Hb]; destruct Hz as [Za Zb].
    destruct t as [| | | |ta tb|ta tb]; cbn in Ht; try contradiction. destruct Ht as [Ta Tb].
    specialize (IHa ta a' Za Ta Ha); specialize (IHb tb b' Zb Tb Hb). cbn [kgrad_at kcov_grad].
    destruct (kgrad_at ta a' X Y) as [a2 A]; destruct (kgrad_at tb b' X Y) as [b2 B]; cbn [fst snd] in *.
    destruct IHa as [Fa <-]; destruct IHb as [Fb <-]. destruct A; cbn [fst snd bind filled]; auto.
  - destruct k' as [| | | | |a' b']; cbn in Hf; try contradiction. destruct Hf as [Ha Hb]; destruct Hz as [Za Zb].
    destruct t as [| | | |ta tb|ta tb]; cbn in Ht; try contradiction. destruct Ht as [Ta Tb].
    specialize (IHa ta a' Za Ta Ha). cbn [kgrad_at kcov_grad].
    destruct (kgrad_at ta a' X Y) as [a1 ga]; cbn [fst snd] in IHa. destruct IHa as [Fa <-]. destruct ga as [ga|e]; cbn [bind]; [|cbn [fst snd filled]; auto].
    pose proof (kcov_arr_same d X Y HX HY b b' Zb Hb) as KB. destruct (kcov_arr b' X Y) as [b1 B]; cbn [fst snd] in KB. destruct KB as [Fb <-].
    destruct B as [B|e]; cbn [bind]; [|cbn [fst snd filled]; auto].
    specialize (IHb tb b1 Zb Tb Fb). destruct (kgrad_at tb b1 X Y) as [b2 gb]; cbn [fst snd] in IHb. destruct IHb as [Fb2 <-]. destruct gb as [gb|e]; cbn [bind]; [|cbn [fst snd filled]; auto].
    pose proof (kcov_arr_same d X Y HX HY a a1 Za Fa) as KA. destruct (kcov_arr a1 X Y) as [a2 A]; cbn [fst snd] in KA. destruct KA as [Fa2 <-].
    cbn [fst snd filled]. auto.
Qed.
Lemma kgrad_arr_same d X Y : holds d X -> holds d Y -> forall k k', zeros_fit d k -> filled d k k' ->
  filled d k (fst (kgrad_arr k' X Y)) /\ snd (kgrad_arr k' X Y) = kcov_grad k (arr_rows X) (arr_rows Y).
Proof. intros HX HY k k' Hz Hf. unfold kgrad_arr. apply kgrad_at_same; assumption. Qed.
Lemma kops_same d k : zeros_fit d k -> forall calls, (forall X Y, In (CallCov X Y) calls \/ In (CallGrad X Y) calls -> holds d X /\ holds d Y) ->
  kops k calls = map (fun c => match c with CallCov X Y => inl (kcov k (arr_rows X) (arr_rows Y)) | CallGrad X Y => inr (kcov_grad k (arr_rows X) (arr_rows Y)) end) calls.
Proof.
  intros Hz calls H. assert (G : forall k', filled d k k' ->
    kops k' calls = map (fun c => match c with CallCov X Y => inl (kcov k (arr_rows X) (arr_rows Y)) | CallGrad X Y => inr (kcov_grad k (arr_rows X) (arr_rows Y)) end) calls).
  { induction calls as [|c calls IH]; intros k' Hf; [reflexivity|].
    assert (H' : forall X Y, In (CallCov X Y) calls \/ In (CallGrad X Y) calls -> holds d X /\ holds d Y) by (intros X Y [I|I]; apply H; [left|right]; right; exact I).
    cbn [kops map]. destruct c as [X Y|X Y].
    - destruct (H X Y (or_introl (or_introl eq_refl))) as [HX HY]. destruct (kcov_arr_same d X Y HX HY k k' Hz Hf) as [F E].
      destruct (kcov_arr k' X Y) as [k2 M]; cbn [fst snd] in *. rewrite E, (IH H' k2 F). reflexivity.
    - destruct (H X Y (or_intror (or_introl eq_refl))) as [HX HY]. destruct (kgrad_arr_same d X Y HX HY k k' Hz Hf) as [F E].
      destruct (kgrad_arr k' X Y) as [k2 M]; cbn [fst snd] in *. rewrite E, (IH H' k2 F). reflexivity. }
  apply G, filled_refl.
Qed.
(** one-column arrays are stretched to the other array's columns, silently *)
Lemma rbf_grad_mixed s l x y1 y2 : rbf_grad_arr s l (Arr1 [x]) (Arr2 2 [[y1; y2]]) = Ok (rbf_cov_grad s l [[x; x]] [[y1; y2]]).
Proof. reflexivity. Qed.
