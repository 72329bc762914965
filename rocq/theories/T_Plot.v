(** Property C179: plots of preferences *)
From Coq Require Import Reals Lra Lia List ZArith.
From Verif Require Import M_Base M_RBase M_Pairs M_OneD M_Viz M_Plot S_Viz S_Plot P_Plot.
Import ListNotations.
Local Open Scope R_scope.

(** points in the plane: one arrow per preference, from the worse to the better point *)
Theorem C179_plane : forall M F sF call ps, Forall (fun r => length r = 2%nat) M -> match sF with Some f => f = F | None => call (Arr2 2 M) = Ok F end -> Forall (proper (length M)) ps ->
  exists as_, plot_preference (Some (Arr2 2 M)) sF call (Some ps) None None None = Ok (as_, []) /\
    Forall2 (shows (fun i => (nth 0 (nth i M []) 0, nth 1 (nth i M []) 0))) ps as_.
Proof.
exact plot_plane.
Qed.
Print Assumptions C179_plane.
(** plain numbers: the arrows run at the heights of the utilities, when there is a utility for every point *)
Theorem C179_flat : forall l F sF call ps, match sF with Some f => f = F | None => call (Arr1 l) = Ok F end -> length F = length l -> Forall (proper (length l)) ps ->
  exists as_, plot_preference (Some (Arr1 l)) sF call (Some ps) None None None = Ok (as_, []) /\ Forall2 (shows (fun i => (nth i l 0, nth i F 0))) ps as_.
Proof.
exact plot_flat.
Qed.
Print Assumptions C179_flat.
(** refuted: a model with preferences can be plotted; the utilities of the last fit are used even when points were added since, and a
    preference that mentions such a point raises an IndexError, whatever the model would predict *)
Theorem C179_stale_refuted : forall l F call ps, (exists p, In p ps /\ mentions_from (length F) p) ->
  plot_preference (Some (Arr1 l)) (Some F) call (Some ps) None None None = Raise IndexError.
Proof.
exact plot_stale.
Qed.
Print Assumptions C179_stale_refuted.
(** refuted: one reward per point can be plotted; as a column it raises an IndexError *)
Theorem C179_column_refuted : forall M F call ps, Forall (fun r => length r = 1%nat) M -> ps <> [] ->
  plot_preference (Some (Arr2 1 M)) (Some F) call (Some ps) None None None = Raise IndexError.
Proof.
exact plot_column.
Qed.
Print Assumptions C179_column_refuted.
(** refuted: given points are plotted; a model without data plots nothing *)
Theorem C179_given_refuted : forall sF call ps abs_ X F, plot_preference None sF call ps abs_ (Some X) (Some F) = Ok ([], []).
Proof.
exact plot_no_data.
Qed.
Print Assumptions C179_given_refuted.
(** more than two rewards in the model's own data are refused *)
Theorem C179_large : forall w M F call ps abs_ aX, (2 < w)%nat -> plot_preference (Some (Arr2 w M)) (Some F) call ps abs_ aX None = Raise ValueError.
Proof.
exact plot_large.
Qed.
Print Assumptions C179_large.
(** refuted: more than two rewards are always refused; of given points the first two coordinates are plotted *)
Theorem C179_given_large_refuted : forall w M l F call ps, (1 < w)%nat -> Forall (fun r => length r = w) M -> Forall (proper (length M)) ps ->
  exists as_, plot_preference (Some (Arr1 l)) (Some F) call (Some ps) None (Some (Arr2 w M)) None = Ok (as_, []) /\
    Forall2 (shows (fun i => (nth 0 (nth i M []) 0, nth 1 (nth i M []) 0))) ps as_.
Proof.
exact plot_given.
Qed.
Print Assumptions C179_given_large_refuted.
(** ratings of plain numbers are shown at their values *)
Theorem C179_ratings : forall l F call vs is_, length F = length l -> length vs = length is_ -> Forall (fun i => (i < length l)%nat) is_ ->
  plot_preference (Some (Arr1 l)) (Some F) call None (Some (vs, is_)) None None = Ok ([], combine (map (fun i => nth i l 0) is_) vs).
Proof.
exact plot_rated.
Qed.
Print Assumptions C179_ratings.

Example C179_plane_ex : Forall (fun r => length r = 2%nat) [[1; 2]; [3; 4]; [5; 6]] /\ Forall (proper 3) [((-1)%Z, 0%nat, 2%nat); (1%Z, 0%nat, 1%nat)].
Proof.
split; [repeat constructor|]. repeat (constructor; [cbn; split; [auto|split; lia]|]). constructor.
Qed.
(** two points were fitted, a third was added *)
Example C179_stale_ex : plot_preference (Some (Arr1 [1; 2; 3])) (Some [0; 1]) (fun _ => Ok [0; 1; 2]) (Some [((-1)%Z, 1%nat, 0%nat); ((-1)%Z, 2%nat, 1%nat)]) None None None = Raise IndexError.
Proof.
reflexivity.
Qed.
Example C179_flat_ex : exists a, plot_preference (Some (Arr1 [1; 2])) None (fun _ => Ok [0; 1]) (Some [((-1)%Z, 1%nat, 0%nat)]) None None None = Ok ([a], []) /\ line_from a = (1, 0) /\ line_to a = (2, 1).
Proof.
eexists. split; [reflexivity|]. split; reflexivity.
Qed.
Example C179_column_ex : Forall (fun r => length r = 1%nat) [[1]; [2]] /\ [((-1)%Z, 1%nat, 0%nat)] <> [].
Proof.
split; [repeat constructor|discriminate].
Qed.
Example C179_ratings_ex : plot_preference (Some (Arr1 [5; 6])) (Some [0; 0]) (fun _ => Ok []) None (Some ([1 / 2], [1%nat])) None None = Ok ([], [(6, 1 / 2)]).
Proof.
reflexivity.
Qed.
