(** Property C177: the pictures of a run *)
From Coq Require Import Reals Lra Lia List ZArith.
From Verif Require Import M_Base M_RBase M_Pairs M_Store M_Viz S_Viz P_RBase P_Viz.
Import ListNotations.
Local Open Scope R_scope.

(** entry (i, j) of the picture is the value at the point whose coordinates are entry (i, j) of the two coordinate arrays *)
Theorem C177_picture : forall {A} (g : R * R -> A) b n d, exists Z, reshape n n (map g (record_pts b n)) = Ok Z /\
  forall i j, (i < n)%nat -> (j < n)%nat ->
    nth j (nth i Z []) d = g (tick (fst (fst b)) (snd (fst b)) n j, tick (fst (snd b)) (snd (snd b)) n i) /\
    nth j (nth i (mesh_X (linspace (fst (fst b)) (snd (fst b)) n) (linspace (fst (snd b)) (snd (snd b)) n)) []) 0 = tick (fst (fst b)) (snd (fst b)) n j /\
    nth j (nth i (mesh_Y (linspace (fst (fst b)) (snd (fst b)) n) (linspace (fst (snd b)) (snd (snd b)) n)) []) 0 = tick (fst (snd b)) (snd (snd b)) n i.
Proof.
exact @picture.
Qed.
Print Assumptions C177_picture.
(** bounds given as one range per reward are covered, corners included *)
Theorem C177_covers : forall x0 x1 y0 y1 n, x0 <= x1 -> y0 <= y1 -> (2 <= n)%nat ->
  (forall p, In p (record_pts ((x0, x1), (y0, y1)) n) -> in_box x0 x1 y0 y1 p) /\
  (forall x y, (x = x0 \/ x = x1) -> (y = y0 \/ y = y1) -> In (x, y) (record_pts ((x0, x1), (y0, y1)) n)).
Proof.
exact covers.
Qed.
Print Assumptions C177_covers.
(** refuted: the default bounds span the square from 0 to 2; all points of the picture are the point (0, 2) *)
Theorem C177_default_refuted : forall n p, In p (record_pts default_bounds n) -> p = (0, 2).
Proof.
exact default_one.
Qed.
Print Assumptions C177_default_refuted.
(** the utility is scaled by a positive number so that it lies between -1 and 1 and reaches one of them *)
Theorem C177_scaled : forall l, (exists x, In x l /\ x <> 0) -> exists c, 0 < c /\ scale_fake l = map (fun x => Some (x / c)) l /\
  (forall x, In x l -> -1 <= x / c <= 1) /\ (exists x, In x l /\ Rabs (x / c) = 1).
Proof.
exact scaled.
Qed.
Print Assumptions C177_scaled.
(** refuted: the scaled utility has values for every utility; that of a utility that is zero on the grid has none *)
Theorem C177_zero_refuted : forall l, (forall x, In x l -> x = 0) -> scale_fake l = map (fun _ => None) l.
Proof.
exact zero_scaled.
Qed.
Print Assumptions C177_zero_refuted.
(** the arrow of a pair labelled -1 or 1 lies between its points and points to the preferred one *)
Theorem C177_arrow : forall pts label i j pi pj w, getitem pts i = Ok pi -> getitem pts j = Ok pj -> preferred_of label i j = Some w ->
  exists a lg sm, draw_pair pts (label, i, j) = Ok a /\ getitem pts w = Ok lg /\ (w = i /\ sm = pj \/ w = j /\ sm = pi) /\
    line_from a = sm /\ line_to a = lg /\ points_to (atail a) (ahead a) sm lg /\ on_segment (atail a) sm lg /\ on_segment (ahead a) sm lg.
Proof.
exact arrow_ok.
Qed.
Print Assumptions C177_arrow.
(** refuted: labels that say nothing are not drawn; every label other than -1 is drawn as a preference for the second point *)
Theorem C177_label_refuted : forall pts label i j, label <> (-1)%Z -> draw_pair pts (label, i, j) = draw_pair pts (1%Z, i, j).
Proof.
exact arrow_other.
Qed.
Print Assumptions C177_label_refuted.
(** without prior points all training points are shown *)
Theorem C177_no_prior : forall {A} (X : list A), shown (Some X) None = X.
Proof.
exact @shown_all.
Qed.
Print Assumptions C177_no_prior.
(** refuted: exactly the prior points are left out; points that were added before them are left out as well *)
Theorem C177_shown_refuted : forall {A} (before prior after : list A),
  shown (Some (before ++ prior ++ after)) (Some (Z.of_nat (length before), Z.of_nat (length before + length prior))) = after.
Proof.
exact @shown_tail.
Qed.
Print Assumptions C177_shown_refuted.
(** the band around the mean regret is one standard error of the mean wide on both sides; it vanishes exactly for equal regrets *)
Theorem C177_band : forall l, l <> [] -> exists e, 0 <= e /\ band l = Some (row_mean l - e, row_mean l, row_mean l + e) /\
  INR (length l) * e ^ 2 = rsum (map (fun x => (x - row_mean l) ^ 2) l) / INR (length l) /\ (e = 0 <-> forall x, In x l -> x = row_mean l).
Proof.
exact band_ok.
Qed.
Print Assumptions C177_band.

(** a picture with two points per side *)
Example C177_picture_ex : reshape 2 2 (map (fun p => fst p) (record_pts ((0, 3 / 2), (0, 1)) 2)) = Ok [[0; 3 / 2]; [0; 3 / 2]] /\
  reshape 2 2 (map (fun p => snd p) (record_pts ((0, 3 / 2), (0, 1)) 2)) = Ok [[0; 0]; [1; 1]].
Proof.
unfold reshape, record_pts, grid_pts, linspace, mesh_X, mesh_Y. cbn [fst snd seq map concat app combine length Nat.eqb Nat.mul Nat.add cut firstn skipn Nat.sub INR].
split; do 2 f_equal; [f_equal|f_equal| |]; repeat (f_equal; try lra).
Qed.
Example C177_covers_ex : In (3 / 2, 1) (record_pts ((0, 3 / 2), (0, 1)) 25).
Proof.
apply (proj2 (covers 0 (3 / 2) 0 1 25 ltac:(lra) ltac:(lra) ltac:(lia))); auto.
Qed.
Example C177_default_ex : length (record_pts default_bounds 25) = 625%nat.
Proof.
reflexivity.
Qed.
Example C177_scaled_ex : exists x, In x [1; -4; 2] /\ x <> 0.
Proof.
exists (-4). split; [right; left; reflexivity|lra].
Qed.
Example C177_arrow_ex : exists a, draw_pair [(0, 0); (2, 4)] ((-1)%Z, 0%nat, 1%nat) = Ok a /\ line_to a = (0, 0) /\ atail a = (1, 2).
Proof.
eexists. split; [reflexivity|]. split; [reflexivity|]. cbn [atail]. unfold between. cbn [fst snd]. f_equal; lra.
Qed.
(** the label 0 says nothing, but is drawn *)
Example C177_label_ex : preferred_of 0 0 1 = None /\ exists a, draw_pair [(0, 0); (2, 4)] (0%Z, 0%nat, 1%nat) = Ok a /\ line_to a = (2, 4).
Proof.
split; [reflexivity|]. eexists. split; reflexivity.
Qed.
Example C177_shown_ex : shown (Some [10; 11; 12; 13]%nat) (Some (1%Z, 3%Z)) = [13]%nat.
Proof.
reflexivity.
Qed.
Example C177_band_ex : exists e, 0 < e /\ band [0; 2] = Some (1 - e, 1, 1 + e).
Proof.
destruct (band_ok [0; 2] ltac:(discriminate)) as (e & P & E & _ & Z). assert (M : row_mean [0; 2] = 1) by (unfold row_mean; cbn; lra). rewrite M in *.
exists e. split; [|exact E]. destruct P as [P|P]; [exact P|]. exfalso. assert (K := proj1 Z (eq_sym P) 0 (or_introl eq_refl)). lra.
Qed.
