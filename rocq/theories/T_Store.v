(** Properties C18-C27, C30, C74: the training-data store of PreferenceModel.py and the lazy re-optimisation flag *)
From Verif Require Import M_Base M_Pareto M_Store S_Store P_Store.
From Coq Require Import Sorted.

(** a history used by several examples: two points with a pair, a third point dominating both, a rating, an ordinal *)
Definition hist_ex : list op :=
  [OAdd [[1#1; 2#1]; [2#1; 1#1]] (LRel [((-1)%Z, 0, 1)]);
   OAdd [[3#1; 3#1]; [0#1; 0#1]] (LAbs [1#2; 1#1]);
   OAdd [[4#1; 0#1]] (LOrd [3%Z])].

(** C18 *)
Theorem C18_labels_in_range : forall pareto ops, history_about (init pareto) ops -> Forall is_add_or_reset ops ->
  labels_in_range (run (init pareto) ops).
Proof. intros pareto ops. exact (run_in_range ops (init pareto) (init_in_range pareto)). Qed.
Print Assumptions C18_labels_in_range.
Theorem C18_pairs_in_range_all_calls : forall pareto ops, rel_history_about (init pareto) ops ->
  rel_in_range (run (init pareto) ops).
Proof. intros pareto ops. exact (run_rel_in_range ops (init pareto) (proj1 (init_in_range pareto))). Qed.
Print Assumptions C18_pairs_in_range_all_calls.
Example C18_ex : history_about (init true) hist_ex /\ Forall is_add_or_reset hist_ex /\
  rel (run (init true) hist_ex) = [((-1)%Z, 0, 1); ((-1)%Z, 2, 0); ((-1)%Z, 2, 1); ((-1)%Z, 2, 3)] /\
  abs_i (run (init true) hist_ex) = [2; 3] /\ ord_i (run (init true) hist_ex) = [4] /\
  length (points (run (init true) hist_ex)) = 5.
Proof.
  split; [|split; [repeat constructor|vm_compute; auto]].
  simpl. repeat split; simpl; auto; intros; repeat match goal with H : _ \/ _ |- _ => destruct H | H : False |- _ => destruct H end;
    match goal with H : (_, _, _) = _ |- _ => inversion H; subst; auto | _ => auto end.
Qed.
Example C18_ex_all_calls : rel_history_about (init true) (hist_ex ++ [OAddPrior [[5#1; 5#1]; [9#1; (-1)#1]]; ORemove false; OReset]) /\
  rel (run (init true) (hist_ex ++ [OAddPrior [[5#1; 5#1]; [9#1; (-1)#1]]])) =
    [((-1)%Z, 0, 1); ((-1)%Z, 2, 0); ((-1)%Z, 2, 1); ((-1)%Z, 2, 3);
     ((-1)%Z, 5, 0); ((-1)%Z, 5, 1); ((-1)%Z, 5, 2); ((-1)%Z, 5, 3); ((-1)%Z, 5, 4)].
Proof.
  split; [|vm_compute; reflexivity].
  simpl. repeat split; simpl; auto; intros; repeat match goal with H : _ \/ _ |- _ => destruct H | H : False |- _ => destruct H end;
    match goal with H : (_, _, _) = _ |- _ => inversion H; subst; auto | _ => auto end.
Qed.

(** C19 *)
Theorem C19_add_appends : forall s X y s', add s X y = (s', Done) ->
  points s' = points s ++ X /\ (exists r, rel s' = rel s ++ r) /\
  (exists v i, ord_v s' = ord_v s ++ v /\ ord_i s' = ord_i s ++ i) /\
  (exists v i, abs_v s' = abs_v s ++ v /\ abs_i s' = abs_i s ++ i).
Proof. exact add_keeps. Qed.
Print Assumptions C19_add_appends.
Theorem C19_add_pairs : forall s X y s', add s X (LRel y) = (s', Done) ->
  (forall d u v, In (d, u, v) y -> u < length X /\ v < length X) ->
  exists u gen, rel s' = rel s ++ u ++ gen /\ map (says (points s')) u = map (says X) y /\
    (sPareto s = false -> gen = []) /\
    (forall k, same_width k (points s') -> Forall (pareto_truth (points s')) gen) /\
    ord_v s' = ord_v s /\ ord_i s' = ord_i s /\ abs_v s' = abs_v s /\ abs_i s' = abs_i s.
Proof. exact add_pairs_meaning. Qed.
Print Assumptions C19_add_pairs.
Theorem C19_add_ordinals : forall s X y s', add s X (LOrd y) = (s', Done) ->
  exists idx gen, ord_v s' = ord_v s ++ y /\ ord_i s' = ord_i s ++ idx /\
    map (nth_error (points s')) idx = map (nth_error X) (seq 0 (length y)) /\
    rel s' = rel s ++ gen /\ (sPareto s = false -> gen = []) /\ abs_v s' = abs_v s /\ abs_i s' = abs_i s.
Proof. exact add_ordinal_meaning. Qed.
Print Assumptions C19_add_ordinals.
Theorem C19_add_ratings : forall s X v s', add s X (LAbs v) = (s', Done) ->
  exists idx gen w, abs_v s' = abs_v s ++ w /\ length w = length v /\ abs_i s' = abs_i s ++ idx /\
    map (nth_error (points s')) idx = map (nth_error X) (seq 0 (length v)) /\
    rel s' = rel s ++ gen /\ (sPareto s = false -> gen = []) /\ ord_v s' = ord_v s /\ ord_i s' = ord_i s.
Proof. exact add_rating_meaning. Qed.
Print Assumptions C19_add_ratings.
Example C19_ex :
  let s := run (init false) hist_ex in
  let X := [[7#1; 7#1]; [8#1; 8#1]] in
  exists s', add s X (LRel [(1%Z, 0, 1)]) = (s', Done) /\ rel s' = [((-1)%Z, 0, 1); (1%Z, 5, 6)] /\
    map (says (points s')) [(1%Z, 5, 6)] = map (says X) [(1%Z, 0, 1)].
Proof. eexists. vm_compute. auto. Qed.

(** C20 *)
Theorem C20_pareto_pairs_sound : forall k s X y s', add s X y = (s', Done) -> same_width k (points s') ->
  exists u gen, rel s' = rel s ++ u ++ gen /\
    map (fun p => fst (fst p)) u = match y with LRel l => map (fun p => fst (fst p)) l | _ => [] end /\
    Forall (pareto_truth (points s')) gen.
Proof. exact add_pareto_sound. Qed.
Print Assumptions C20_pareto_pairs_sound.
Theorem C20_pareto_pairs_cover : forall k s X y s' i j a b, add s X y = (s', Done) -> same_width (S k) (points s') ->
  sPareto s = true -> length (points s) <= i ->
  nth_error (points s') i = Some a -> nth_error (points s') j = Some b -> dominates a b -> In ((-1)%Z, i, j) (rel s').
Proof. exact add_pareto_complete. Qed.
Print Assumptions C20_pareto_pairs_cover.
Example C20_ex :
  let s := run (init true) [OAdd [[1#1; 2#1]; [2#1; 1#1]] LUnknown] in
  exists s', add s [[3#1; 3#1]; [0#1; 0#1]] LUnknown = (s', Done) /\ same_width 2 (points s') /\ sPareto s = true /\
    dominates [3#1; 3#1] [2#1; 1#1] /\ rel s' = [((-1)%Z, 2, 0); ((-1)%Z, 2, 1); ((-1)%Z, 2, 3)].
Proof. eexists. split; [vm_compute; reflexivity|]. split; [repeat constructor|]. split; [reflexivity|]. split; [repeat constructor|reflexivity]. Qed.

(** C21: false; a dominated point added after the dominating one gets no pair *)
Theorem C21_pareto_order_refuted : exists ops i j a b,
  let s := run (init true) ops in
  (forall o, In o ops -> exists X, o = OAdd X (LRel [])) /\
  nth_error (points s) i = Some a /\ nth_error (points s) j = Some b /\ dominates a b /\ rel s = [].
Proof.
  exists [OAdd [[1#1; 1#1]] (LRel []); OAdd [[0#1; 0#1]] (LRel [])], 0, 1, [1#1; 1#1], [0#1; 0#1]. simpl.
  split; [|repeat split; repeat constructor].
  intros o [<-|[<-|[]]]; eauto.
Qed.
Print Assumptions C21_pareto_order_refuted.
Theorem C21_pareto_order_partial : forall k s X y s1 rest s' i j a b,
  same_width (S k) (points s ++ X) -> sPareto s = true ->
  add s X y = (s1, Done) -> adds_ok s1 rest = Some s' ->
  length (points s) <= i < length (points s1) -> j < length (points s1) ->
  nth_error (points s') i = Some a -> nth_error (points s') j = Some b -> dominates a b ->
  In ((-1)%Z, i, j) (rel s').
Proof. exact later_batch_recorded. Qed.
Print Assumptions C21_pareto_order_partial.
Example C21_ex :
  let s := run (init true) [OAdd [[0#1; 0#1]] (LRel [])] in
  exists s1 s', add s [[1#1; 1#1]] (LRel []) = (s1, Done) /\ adds_ok s1 [([[2#1; 0#1]], LOrd [2%Z])] = Some s' /\
    rel s' = [((-1)%Z, 1, 0)] /\ same_width 2 (points s').
Proof. eexists. eexists. split; [vm_compute; reflexivity|]. split; [vm_compute; reflexivity|]. split; [reflexivity|]. repeat constructor. Qed.

(** C22 *)
Theorem C22_ratings_validated : forall s X y v, ratings_of y = Some v ->
  (snd (add s X y) = Raised ValueError /\ abs_v (fst (add s X y)) = abs_v s /\ exists x, In x v /\ (x < 0 \/ 1 < x)%Q) \/
  (snd (add s X y) = Done /\ (forall x, In x v -> (0 <= x <= 1)%Q) /\
   exists w, abs_v (fst (add s X y)) = abs_v s ++ w /\ ratings_image v w).
Proof. exact add_ratings_main. Qed.
Print Assumptions C22_ratings_validated.
Theorem C22_ordinals_validated : forall s X y v, ordinals_of y = Some v ->
  (snd (add s X y) = Raised GenericException /\ exists x, In x v /\ (x <= 0)%Z) \/
  (snd (add s X y) = Done /\ (forall x, In x v -> (0 < x)%Z) /\ ord_v (fst (add s X y)) = ord_v s ++ v).
Proof. exact add_ordinals. Qed.
Print Assumptions C22_ordinals_validated.
Theorem C22_stored_ratings_usable : forall pareto ops, ratings_ok (run (init pareto) ops).
Proof. intros pareto ops. exact (run_ratings_ok ops (init pareto) (fun x H => match H with end)). Qed.
Print Assumptions C22_stored_ratings_usable.
Example C22_ex :
  abs_v (run (init true) hist_ex) = [1#2; 999#1000] /\
  snd (add (init true) [[1#1]] (LAbs [11#10])) = Raised ValueError /\
  snd (add (init true) [[1#1]] (LOrd [0%Z])) = Raised GenericException.
Proof. vm_compute. auto. Qed.

(** C23: false; the points are stored before the labels are checked *)
Theorem C23_rejected_add_refuted :
  (exists s X y, snd (add s X y) = Raised GenericException /\ points (fst (add s X y)) <> points s) /\
  (exists s X y, snd (add s X y) = Raised ValueError /\ points (fst (add s X y)) <> points s) /\
  (exists s X y, snd (add s X y) = Refused /\ points (fst (add s X y)) <> points s).
Proof.
  split; [|split]; exists (run (init false) hist_ex), [[1#1; 1#1]];
    [exists (LOrd [0%Z]) | exists (LAbs [2#1]) | exists LAbsOther]; vm_compute; split; congruence.
Qed.
Print Assumptions C23_rejected_add_refuted.
Theorem C23_rejected_add_labels : forall s X y s' st, add s X y = (s', st) -> st <> Done ->
  points s' = points s ++ X /\ rel s' = rel s /\ ord_v s' = ord_v s /\ ord_i s' = ord_i s /\ abs_v s' = abs_v s /\
  abs_i s' = abs_i s /\ sOpt s' = sOpt s /\ sPareto s' = sPareto s /\ sPrior s' = sPrior s.
Proof. exact add_rejected. Qed.
Print Assumptions C23_rejected_add_labels.
Example C23_ex : let s := run (init false) hist_ex in exists s', add s [[1#1; 1#1]] (LOrd [0%Z]) = (s', Raised GenericException) /\
  points s' = points s ++ [[1#1; 1#1]] /\ rel s' = [((-1)%Z, 0, 1)] /\ ord_v s' = [3%Z] /\ abs_v s' = abs_v s.
Proof. eexists. vm_compute. repeat split. Qed.

(** C24 *)
Theorem C24_remove_keeps_pairs : forall s b s' st, remove_without_reference s b = (s', st) ->
  rel_in_range s -> sX s <> None -> sRel s <> None -> (b = true -> sPrior s <> None) ->
  st = Done /\ map (says (points s')) (rel s') = map (says (points s)) (rel s) /\
  exists keep, picked (points s) keep (points s') /\ (forall i, In i keep <-> i < length (points s) /\ referenced s i).
Proof. exact remove_main. Qed.
Print Assumptions C24_remove_keeps_pairs.
Example C24_ex :
  let s := run (init false) (OAdd [[9#1; 9#1]] LUnknown :: hist_ex ++ [OAdd [[5#1; 5#1]; [6#1; 6#1]] (LRel [(1%Z, 0, 1)])]) in
  exists s', remove_without_reference s false = (s', Done) /\ sX s <> None /\ sRel s <> None /\
    rel s = [((-1)%Z, 1, 2); (1%Z, 6, 7)] /\
    rel s' = [((-1)%Z, 0, 1); (1%Z, 2, 3)] /\ points s' = [[1#1; 2#1]; [2#1; 1#1]; [5#1; 5#1]; [6#1; 6#1]].
Proof. eexists. vm_compute. repeat split; congruence. Qed.

(** C25: false; ratings keep their old index, the points below it may be gone *)
Theorem C25_remove_keeps_ratings_refuted :
  (exists s s', remove_without_reference s false = (s', Done) /\ labels_in_range s /\
     abs_v s' = abs_v s /\ abs_i s' = [0] /\ abs_i s = [0] /\ nth_error (points s') 0 <> nth_error (points s) 0) /\
  (exists s s' i, remove_without_reference s false = (s', Done) /\ labels_in_range s /\
     In i (abs_i s') /\ length (points s') <= i).
Proof.
  split.
  - exists (run (init false) [OAdd [[1#1]] (LAbs [1#2]); OAdd [[2#1]; [3#1]] (LRel [(1%Z, 0, 1)])]).
    eexists. split; [vm_compute; reflexivity|].
    split; [apply run_in_range; [apply init_in_range| |repeat constructor]|].
    + simpl. repeat split; auto; intros; repeat match goal with H : _ \/ _ |- _ => destruct H | H : False |- _ => destruct H end;
      match goal with H : (_, _, _) = _ |- _ => inversion H; subst; auto | _ => auto end.
    + repeat split. vm_compute. congruence.
  - exists (run (init false) [OAdd [[2#1]; [3#1]] (LRel [(1%Z, 0, 1)]); OAdd [[1#1]] (LAbs [1#2])]).
    eexists. exists 2. split; [vm_compute; reflexivity|].
    split; [apply run_in_range; [apply init_in_range| |repeat constructor]|].
    + simpl. repeat split; auto; intros; repeat match goal with H : _ \/ _ |- _ => destruct H | H : False |- _ => destruct H end;
      match goal with H : (_, _, _) = _ |- _ => inversion H; subst; auto | _ => auto end.
    + split; [left; reflexivity|]. simpl. auto.
Qed.
Print Assumptions C25_remove_keeps_ratings_refuted.
Theorem C25_remove_keeps_ratings_partial : forall s b s' st i,
  remove_without_reference s b = (s', st) -> rel_in_range s -> sX s <> None -> sRel s <> None ->
  (b = true -> sPrior s <> None) -> i < length (points s) ->
  (forall j, j <= i -> referenced s j) ->
  nth_error (points s') i = nth_error (points s) i /\ sOrd s' = sOrd s /\ sAbs s' = sAbs s.
Proof.
  intros s b s' st i H Hr HX HR HP Hi Href. split; [exact (remove_rating_prefix s b s' st i H Hr HX HR HP Hi Href)|].
  rewrite <- (f_equal fst H : fst (remove_without_reference s b) = s'). exact (remove_labels s b).
Qed.
Print Assumptions C25_remove_keeps_ratings_partial.
(** the second of two compared points is rated, a third point without a pair is removed *)
Example C25_ex : let s := run (init false) [OAdd [[1#1]; [2#1]] (LRel [(1%Z, 0, 1)]); OAdd [[3#1]] (LAbs [1#2])] in
  exists s', remove_without_reference s false = (s', Done) /\ rel_in_range s /\ 1 < length (points s) /\ (forall j, j <= 1 -> referenced s j) /\
  length (points s') = 2 /\ nth_error (points s') 1 = Some [2#1] /\ sAbs s' = sAbs s.
Proof.
  eexists. split; [vm_compute; reflexivity|]. split; [|split; [simpl; auto|split]].
  - intros d u v H. simpl in H. destruct H as [H|[]]. injection H as <- <- <-. simpl. auto.
  - intros j Hj. exists 1%Z, 0, 1. split; [simpl; auto|]. destruct j as [|[|j]]; auto. inversion Hj; subst. inversion H0.
  - vm_compute. auto.
Qed.

(** C26: false; a rated but unpaired old point is dropped and the slice of prior points starts too late *)
Theorem C26_prior_points_refuted : exists s s',
  labels_in_range s /\ add_prior s [[0#1; 0#1]; [1#1; 1#1]] = (s', Done) /\
  points s' = [[0#1; 0#1]; [1#1; 1#1]] /\ get_prior_pts s' = Ok (Some [[1#1; 1#1]]).
Proof.
  exists (run (init true) [OAdd [[2#1; (-1)#1]] (LAbs [1#2])]). eexists. split; [|split; [vm_compute; reflexivity|split; reflexivity]].
  apply run_in_range; [apply init_in_range | simpl; auto | repeat constructor].
Qed.
Print Assumptions C26_prior_points_refuted.
(** false also when points that occur in no pair are removed later: the number of removed points is taken from the end of the slice,
    whether they were prior points or not, and a bound below zero counts from the end *)
Theorem C26_later_refuted : exists s s', add_prior (init true) [[0#1; 0#1]; [1#1; 1#1]] = (s, Done) /\ get_prior_pts s = Ok (Some [[0#1; 0#1]; [1#1; 1#1]]) /\
  s' = run s [OAdd [[5#1; (-5)#1]; [6#1; (-6)#1]; [7#1; (-7)#1]] (LRel []); ORemove true] /\ points s' = points s /\ sPrior s' = Some (0, -1)%Z /\ get_prior_pts s' = Ok (Some [[0#1; 0#1]]).
Proof. do 2 eexists. split; [vm_compute; reflexivity|]. split; [reflexivity|]. split; [reflexivity|]. vm_compute. auto. Qed.
Print Assumptions C26_later_refuted.
Theorem C26_prior_points_partial : forall k s pts s',
  sPareto s = true -> rel_in_range s -> same_width (S k) (points s ++ pts) ->
  (forall i, i < length (points s) -> referenced s i) ->
  add_prior s pts = (s', Done) ->
  exists keep l, get_prior_pts s' = Ok (Some l) /\ points s' = points s ++ l /\ picked pts keep l /\
    forall i, In i keep <-> exists a, nth_error pts i = Some a /\
       ((exists b, In b (points s ++ pts) /\ dominates a b) \/ (exists b, In b pts /\ dominates b a)).
Proof. exact add_prior_main. Qed.
Print Assumptions C26_prior_points_partial.
Example C26_ex :
  let s := run (init true) [OAdd [[1#1; 2#1]; [2#1; 1#1]] (LRel [((-1)%Z, 0, 1)])] in
  exists s', add_prior s [[3#1; 0#1]; [0#1; 0#1]; [4#1; 4#1]] = (s', Done) /\ sPareto s = true /\
   same_width 2 (points s ++ [[3#1; 0#1]; [0#1; 0#1]; [4#1; 4#1]]) /\
   (forall i, i < length (points s) -> referenced s i) /\
   get_prior_pts s' = Ok (Some [[3#1; 0#1]; [0#1; 0#1]; [4#1; 4#1]]).
Proof.
  eexists. split; [vm_compute; reflexivity|]. split; [reflexivity|]. split; [repeat constructor|]. split; [|reflexivity].
  intros i Hi. exists (-1)%Z, 0, 1. split; [left; reflexivity|]. change (i < 2) in Hi. lia.
Qed.

(** C27 *)
Theorem C27_reset_is_fresh : forall s ops, same_data (run (reset s) ops) (run (init (sPareto s)) ops).
Proof. exact reset_fresh. Qed.
Print Assumptions C27_reset_is_fresh.
Theorem C27_reset_same_outcomes : forall s ops o,
  snd (step (run (reset s) ops) o) = snd (step (run (init (sPareto s)) ops) o).
Proof. exact reset_fresh_status. Qed.
Print Assumptions C27_reset_same_outcomes.
Example C27_ex : points (run (reset (run (init true) hist_ex)) [OAdd [[1#1]] LUnknown]) = [[1#1]].
Proof. reflexivity. Qed.

(** C30 *)
Theorem C30_predictions_fresh : forall gp pareto ops f m' r, let m := mrun (new_model gp pareto) ops in
  accepted (new_model gp pareto) ops -> predict f m = (m', r) ->
  data_of (mS m') = data_of (mS m) /\
  match r with
  | Ok FromPrior => sX (mS m) = None
  | Ok (FromFit d) => d = data_of (mS m)
  | Raise _ => sX (mS m) <> None /\ f <> Fits
  end.
Proof. exact predict_fresh. Qed.
Print Assumptions C30_predictions_fresh.
Definition mhist_ex : list mop :=
  map MStore hist_ex ++ [MPredict Fits; MStore (OAdd [[6#1; 6#1]] (LAbs [1#3])); MPredict (FailsInFit None);
                         MStore (OAddPrior [[7#1; 0#1]])].
Example C30_ex : accepted (new_model true true) mhist_ex /\
  exists m' d, predict Fits (mrun (new_model true true) mhist_ex) = (m', Ok (FromFit d)) /\ data_npts d = 6.
Proof.
  split.
  - simpl. repeat split; intros; congruence.
  - eexists. eexists. split; vm_compute; reflexivity.
Qed.

(** C74: false; after a rejected add (or a direct remove_without_reference, or a failure inside the hyper-parameter
    search) the flag still says "optimised" although the fit belongs to other data *)
Theorem C74_rejected_add_blocks_predictions_refuted : exists m,
  m = mrun (new_model true false) [MStore (OAdd [[1#1]; [2#1]] (LRel [(1%Z, 0, 1)])); MOptimize Fits;
                                   MStore (OAdd [[3#1]] (LAbs [2#1]))] /\
  forall f, predict f m = (m, Raise ValueError).
Proof. eexists. split; [reflexivity|]. intro f. vm_compute. reflexivity. Qed.
Print Assumptions C74_rejected_add_blocks_predictions_refuted.
Theorem C74_stale_after_remove_refuted :
  (exists m, m = mrun (new_model true false) [MStore (OAdd [[1#1]; [2#1]; [3#1]] (LRel [(1%Z, 0, 1)])); MOptimize Fits;
                              MStore (ORemove false)] /\ forall f, predict f m = (m, Raise ValueError)) /\
  (exists m d, m = mrun (new_model false false) [MStore (OAdd [[1#1]; [2#1]; [3#1]] (LRel [(1%Z, 0, 1)])); MOptimize Fits;
                              MStore (ORemove false)] /\
     (forall f, predict f m = (m, Ok (FromFit d))) /\ d <> data_of (mS m)).
Proof.
  split; [eexists; split; [reflexivity|]; intro f; vm_compute; reflexivity|].
  eexists. eexists. split; [reflexivity|]. split; [intro f; vm_compute; reflexivity|]. vm_compute. congruence.
Qed.
Print Assumptions C74_stale_after_remove_refuted.
Theorem C74_failed_search_blocks_predictions_refuted : exists m fold,
  m = mrun (new_model true false) [MStore (OAdd [[1#1]; [2#1]; [3#1]; [4#1]] (LAbs [1#2; 1#3; 1#4; 1#5]));
                                   MPredict (FailsInSearch (Some fold))] /\
  forall f, predict f m = (m, Raise ValueError).
Proof. eexists. exists (Some [[1#1]; [2#1]], None, None, Some ([1#2; 1#3], [0; 1])). split; [reflexivity|]. intro f. vm_compute. reflexivity. Qed.
Print Assumptions C74_failed_search_blocks_predictions_refuted.
