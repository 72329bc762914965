(** Specification vocabulary for observations of a Gaussian process: points with their outputs and uncertainties. *)
From Verif Require Import M_Base M_RBase M_Kernel M_GP S_GP M_GPNoise.
Local Open Scope R_scope.

(** the uncertainties an argument gives for a number of outputs: the same for all, or one each *)
Definition gives (s : sigma_in) (l : list R) : Prop :=
  match s with
  | InNum s => Forall (eq s) l
  | InArr a => a = l \/ exists v, a = [v] /\ Forall (eq v) l
  | InSeq a => a = l
  end.
(** a call says that these points were observed with these outputs and uncertainties; [None] for reset *)
Definition says (mean : option (point -> R)) (p : gin_op) (rs : option (list (point * R * R))) : Prop :=
  match p, rs with
  | InAdd a X y s, Some rs => (a = true \/ mean <> None) /\ X = points_of rs /\ y = obs_of rs /\ gives s (noise_of rs)
  | InReset, None => True
  | _, _ => False
  end.
(** what was observed since the last reset *)
Definition observed (h : list (option (list (point * R * R)))) : option (list (point * R * R)) :=
  fold_left (fun acc o => match o with
                          | None => None
                          | Some rs => Some (match acc with None => rs | Some l => l ++ rs end)
                          end) h None.
(** outputs relative to the mean function *)
Definition relative (mean : option (point -> R)) (rs : list (point * R * R)) : list (point * R * R) :=
  map (fun t => (fst (fst t), snd (fst t) - prior_mean mean (fst (fst t)), snd t)) rs.
