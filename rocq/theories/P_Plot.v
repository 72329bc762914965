(** Lemmas about plots of preferences. *)
From Coq Require Import Reals Lra Lia List ZArith.
From Verif Require Import M_Base M_RBase M_Pairs M_OneD M_Viz M_Plot S_Viz S_Plot.
Import ListNotations.
Local Open Scope R_scope.

Lemma getitem_nth {A} (l : list A) i d : (i < length l)%nat -> getitem l i = Ok (nth i l d).
Proof. intro H. unfold getitem. rewrite (nth_error_nth' l d H). reflexivity. Qed.
Lemma getitem_out {A} (l : list A) i : (length l <= i)%nat -> getitem l i = Raise IndexError.
Proof. intro H. unfold getitem. apply nth_error_None in H. rewrite H. reflexivity. Qed.
Lemma between_points p q : points_to (between p q (1 / 2)) (between p q (1 / 2 + 1 / 1000)) p q.
Proof. exists (1 / 1000). unfold between. cbn [fst snd]. split; [lra|]. split; lra. Qed.
Lemma pair_shown X F n at_ p : (forall i, (i < n)%nat -> plot_point X F i = Ok (at_ i)) -> proper n p -> exists a, plot_pair X F p = Ok a /\ shows at_ p a.
Proof.
  intros H. destruct p as [[label i] j]. intros ([->| ->] & Hi & Hj); unfold plot_pair; change (get_dk 1 0) with (-1)%Z; cbn [Z.eqb Pos.eqb];
    rewrite (H _ Hi), (H _ Hj); cbn [bind]; eexists; (split; [reflexivity|]); unfold shows; cbn [line_from line_to atail ahead].
  - left. auto using between_points.
  - right. auto using between_points.
Qed.
Lemma mapM_shown X F n at_ ps : (forall i, (i < n)%nat -> plot_point X F i = Ok (at_ i)) -> Forall (proper n) ps ->
  exists l, mapM (plot_pair X F) ps = Ok l /\ Forall2 (shows at_) ps l.
Proof.
  intros H. induction 1 as [|p ps Hp Hs IH]; [exists []; split; [reflexivity|constructor]|].
  destruct (pair_shown X F n at_ p H Hp) as (a & Ea & Sa). destruct IH as (l & El & Sl). exists (a :: l). cbn [mapM]. rewrite Ea, El. cbn [bind]. auto.
Qed.

(** what [plot_preference] does with its own data and no ratings *)
Lemma plot_own X F sF call ps : match X with Arr2 w _ => (w <= 2)%nat | Arr1 _ => True end ->
  match sF with Some f => f = F | None => call X = Ok F end ->
  plot_preference (Some X) sF call (Some ps) None None None = do l <- mapM (plot_pair X F) ps; Ok (l, []).
Proof.
  intros HX HF. unfold plot_preference. assert (E : match sF with Some f => Ok (Some f) | None => do f <- call X; Ok (Some f) end = Ok (Some F)).
  { destruct sF; [subst; reflexivity|]. rewrite HF. reflexivity. }
  rewrite E. cbn [bind]. replace (match X with Arr1 _ => false | Arr2 w _ => Nat.ltb 2 w end) with false; [reflexivity|].
  destruct X; [reflexivity|]. symmetry. apply Nat.ltb_ge. exact HX.
Qed.
Lemma plot_flat l F sF call ps : match sF with Some f => f = F | None => call (Arr1 l) = Ok F end -> length F = length l -> Forall (proper (length l)) ps ->
  exists as_, plot_preference (Some (Arr1 l)) sF call (Some ps) None None None = Ok (as_, []) /\ Forall2 (shows (fun i => (nth i l 0, nth i F 0))) ps as_.
Proof.
  intros HF L P. destruct (mapM_shown (Arr1 l) F (length l) (fun i => (nth i l 0, nth i F 0)) ps) as (as_ & E & S_); auto.
  - intros i Hi. cbn [plot_point]. rewrite (getitem_nth l i 0), (getitem_nth F i 0) by lia. reflexivity.
  - exists as_. rewrite (plot_own (Arr1 l) F sF call ps I HF), E. auto.
Qed.
Lemma plot_plane M F sF call ps : Forall (fun r => length r = 2%nat) M -> match sF with Some f => f = F | None => call (Arr2 2 M) = Ok F end -> Forall (proper (length M)) ps ->
  exists as_, plot_preference (Some (Arr2 2 M)) sF call (Some ps) None None None = Ok (as_, []) /\
    Forall2 (shows (fun i => (nth 0 (nth i M []) 0, nth 1 (nth i M []) 0))) ps as_.
Proof.
  intros HM HF P. destruct (mapM_shown (Arr2 2 M) F (length M) (fun i => (nth 0 (nth i M []) 0, nth 1 (nth i M []) 0)) ps) as (as_ & E & S_); auto.
  - intros i Hi. cbn [plot_point]. rewrite (getitem_nth M i []) by exact Hi. cbn [bind]. assert (L : length (nth i M []) = 2%nat) by (apply (proj1 (Forall_forall _ _) HM), nth_In, Hi).
    rewrite (getitem_nth _ 0 0), (getitem_nth _ 1 0) by lia. reflexivity.
  - exists as_. rewrite (plot_own (Arr2 2 M) F sF call ps (le_n 2) HF), E. auto.
Qed.
Lemma mapM_index X F ps : (forall p, In p ps -> forall e, plot_pair X F p = Raise e -> e = IndexError) -> (exists p, In p ps /\ exists e, plot_pair X F p = Raise e) ->
  mapM (plot_pair X F) ps = Raise IndexError.
Proof.
  induction ps as [|q ps IH]; intros H (p & I & e & E); [destruct I|]. cbn [mapM]. destruct (plot_pair X F q) as [a|e'] eqn:Eq.
  - cbn [bind]. rewrite IH; [reflexivity| |].
    + intros p' I' e' E'. apply (H p'); [right; auto|auto].
    + destruct I as [<-|I]; [congruence|]. exists p. eauto.
  - cbn [bind]. rewrite (H q (or_introl eq_refl) e' Eq). reflexivity.
Qed.
Lemma point_index X F i e : plot_point X F i = Raise e -> e = IndexError.
Proof.
  unfold plot_point, getitem. destruct X as [l|w M].
  - destruct (nth_error l i); cbn [bind]; [|congruence]. destruct (nth_error F i); cbn [bind]; congruence.
  - destruct (nth_error M i) as [r|]; cbn [bind]; [|congruence]. destruct (nth_error r 0); cbn [bind]; [|congruence]. destruct (nth_error r 1); cbn [bind]; congruence.
Qed.
Lemma pair_index X F p e : plot_pair X F p = Raise e -> e = IndexError.
Proof.
  destruct p as [[label i] j]. unfold plot_pair. cbv zeta.
  destruct (plot_point X F (if Z.eqb label (get_dk 1 0) then j else i)) eqn:E1; cbn [bind].
  - destruct (plot_point X F (if Z.eqb label (get_dk 1 0) then i else j)) eqn:E2; cbn [bind]; [congruence|]. intros [= <-]. eauto using point_index.
  - intros [= <-]. eauto using point_index.
Qed.
Lemma pair_fails X F label i j : (exists e, plot_point X F i = Raise e) \/ (exists e, plot_point X F j = Raise e) -> exists e, plot_pair X F (label, i, j) = Raise e.
Proof.
  intros H. unfold plot_pair. cbv zeta. destruct (Z.eqb label (get_dk 1 0)).
  - destruct H as [(e & E)|(e & E)]; rewrite E; cbn [bind]; [|eauto]. destruct (plot_point X F j); cbn [bind]; eauto.
  - destruct H as [(e & E)|(e & E)]; rewrite E; cbn [bind]; [eauto|]. destruct (plot_point X F i); cbn [bind]; eauto.
Qed.
Lemma plot_stale l F call ps : (exists p, In p ps /\ mentions_from (length F) p) ->
  plot_preference (Some (Arr1 l)) (Some F) call (Some ps) None None None = Raise IndexError.
Proof.
  intros ([[label i] j] & I & H). rewrite (plot_own (Arr1 l) F (Some F) call ps Logic.I eq_refl). rewrite mapM_index; [reflexivity| |].
  - intros p _ e. apply pair_index.
  - exists (label, i, j). split; [exact I|]. apply pair_fails.
    assert (K : forall k, (length F <= k)%nat -> exists e, plot_point (Arr1 l) F k = Raise e).
    { intros k Hk. cbn [plot_point]. destruct (getitem l k) as [x|e]; cbn [bind]; [|eauto]. rewrite (getitem_out F k Hk). cbn [bind]. eauto. }
    destruct H as [H|H]; [left|right]; apply K, H.
Qed.
Lemma plot_column M F call ps : Forall (fun r => length r = 1%nat) M -> ps <> [] ->
  plot_preference (Some (Arr2 1 M)) (Some F) call (Some ps) None None None = Raise IndexError.
Proof.
  intros HM HP. rewrite (plot_own (Arr2 1 M) F (Some F) call ps (le_S _ _ (le_n 1)) eq_refl). rewrite mapM_index; [reflexivity| |].
  - intros p _ e. apply pair_index.
  - destruct ps as [|[[label i] j] ps]; [congruence|]. exists (label, i, j). split; [left; reflexivity|]. apply pair_fails. left.
    cbn [plot_point]. unfold getitem at 1. destruct (nth_error M i) as [r|] eqn:E; cbn [bind]; [|eauto].
    assert (L : length r = 1%nat) by (apply (proj1 (Forall_forall _ _) HM), (nth_error_In _ _ E)).
    destruct (getitem r 0); cbn [bind]; [|eauto]. rewrite (getitem_out r 1) by lia. cbn [bind]. eauto.
Qed.
Lemma plot_no_data sF call ps abs_ X F : plot_preference None sF call ps abs_ (Some X) (Some F) = Ok ([], []).
Proof. reflexivity. Qed.
Lemma plot_large w M F call ps abs_ aX : (2 < w)%nat -> plot_preference (Some (Arr2 w M)) (Some F) call ps abs_ aX None = Raise ValueError.
Proof. intro H. apply Nat.ltb_lt in H. unfold plot_preference. destruct aX; cbn [bind]; rewrite H; reflexivity. Qed.
Lemma plot_rated l F call vs is_ : length F = length l -> length vs = length is_ -> Forall (fun i => (i < length l)%nat) is_ ->
  plot_preference (Some (Arr1 l)) (Some F) call None (Some (vs, is_)) None None = Ok ([], combine (map (fun i => nth i l 0) is_) vs).
Proof.
  intros _ _ H. unfold plot_preference. cbn [bind plot_ratings snd fst].
  assert (E : mapM (getitem l) is_ = Ok (map (fun i => nth i l 0) is_)).
  { induction H as [|i is_ Hi Hs IH]; [reflexivity|]. cbn [mapM map]. rewrite (getitem_nth l i 0 Hi), IH. reflexivity. }
  rewrite E. reflexivity.
Qed.
(** the number of columns of given points is not looked at *)
Lemma plot_given w M l F call ps : (1 < w)%nat -> Forall (fun r => length r = w) M -> Forall (proper (length M)) ps ->
  exists as_, plot_preference (Some (Arr1 l)) (Some F) call (Some ps) None (Some (Arr2 w M)) None = Ok (as_, []) /\
    Forall2 (shows (fun i => (nth 0 (nth i M []) 0, nth 1 (nth i M []) 0))) ps as_.
Proof.
  intros Hw HM P. destruct (mapM_shown (Arr2 w M) F (length M) (fun i => (nth 0 (nth i M []) 0, nth 1 (nth i M []) 0)) ps) as (as_ & E & S_); auto.
  - intros i Hi. cbn [plot_point]. rewrite (getitem_nth M i []) by exact Hi. cbn [bind]. assert (L : length (nth i M []) = w) by (apply (proj1 (Forall_forall _ _) HM), nth_In, Hi).
    rewrite (getitem_nth _ 0 0), (getitem_nth _ 1 0) by lia. reflexivity.
  - exists as_. unfold plot_preference. cbn [bind]. rewrite E. auto.
Qed.
