(** Specification vocabulary for fitting: log likelihood of all labels, log posterior, derivatives along a direction. *)
From Verif Require Export M_RBase S_PrefProbit S_OrdProbit S_AbsProbit.
From Coquelicot Require Import Coquelicot.
From Verif Require S_GP.
From Verif Require Import M_RBase M_Normal M_PrefProbit M_OrdProbit M_AbsProbit M_Fit S_PrefProbit S_OrdProbit S_AbsProbit S_Psd.
Local Open Scope R_scope.

(** moving from [F] along [e] *)
Definition along (F e : nat -> R) (t : R) : nat -> R := fun i => F i + t * e i.
(** [l] is the derivative of [f] at [F] along [e]; its value *)
Definition has_direction (f : (nat -> R) -> R) (F e : nat -> R) (l : R) : Prop := is_derive (fun t : R => f (along F e t)) 0 l.
Definition direction (f : (nat -> R) -> R) (e F : nat -> R) : R := Derive (fun t : R => f (along F e t)) 0.

(** log likelihood of the comparisons: point v beats point u (dk = 1) with the probability Phi((F_v - F_u) / (sigma sqrt 2)) *)
Definition LLp (s : R) (y : list pair) (F : nat -> R) : R := rsum (map (fun p => ln (ndtr (dk_of p * (F (v_of p) - F (u_of p)) / (s * sqrt 2)))) y).
(** log likelihood of all labels *)
Definition part {A} (o : option A) (f : A -> R) : R := match o with None => 0 | Some y => f y end.
Definition LL (sp : special) (P : probit_set) (y : labels) (F : nat -> R) : R :=
  part (y_rel y) (fun r => LLp (p_sigma (ps_p P)) r F) + part (y_ord y) (fun o => LLo (ps_o P) o F) +
  part (y_abs y) (fun a => LLa sp (a_v (ps_a P)) (a_sigma (ps_a P)) a F).
(** log posterior up to a constant: the latent values have the inverse covariance [B] *)
Definition log_post (sp : special) (P : probit_set) (y : labels) (n : nat) (B : nat -> nat -> R) (F : nat -> R) : R := LL sp P y F - 1 / 2 * qform n B F.

(** parameters in their documented range *)
Definition good_probits (sp : special) (P : probit_set) : Prop :=
  p_sigma (ps_p P) <> 0 /\ o_sigma (ps_o P) <> 0 /\ 0 < a_v (ps_a P) /\ 0 < ps_eps P /\ gamma_facts sp.
(** labels refer to the [n] points; no point has two ordinal labels or two ratings *)
Definition good_labels (P : probit_set) (n : nat) (y : labels) : Prop :=
  (forall r, y_rel y = Some r -> well_formed n r) /\
  (forall o, y_ord y = Some o -> NoDup (map snd o) /\ valid (ps_o P) o /\ forall p, In p o -> (snd p < n)%nat) /\
  (forall a, y_abs y = Some a -> NoDup (map snd a) /\ forall p, In p a -> (snd p < n)%nat).
(** no clipping, and no ordinal label that is too unlikely *)
Definition ordinary (P : probit_set) (y : labels) (F : nat -> R) : Prop :=
  (forall r, y_rel y = Some r -> unclipped (p_sigma (ps_p P)) r F) /\
  (forall o, y_ord y = Some o -> forall p, In p o -> label_unclipped (o_n (ps_o P)) (o_sigma (ps_o P)) (o_b (ps_o P)) (fst p) (F (snd p)) /\
                                                 ps_eps P <= label_prob (o_n (ps_o P)) (o_sigma (ps_o P)) (o_b (ps_o P)) (fst p) (F (snd p))) /\
  (forall a, y_abs y = Some a -> all_free (ps_eps P) (a_sigma (ps_a P)) a F).
(** scalar product, and the bilinear form of a matrix *)
Definition dotn (n : nat) (x y : nat -> R) : R := sumn n (fun i => x i * y i).
Definition bform (n : nat) (A : nat -> nat -> R) (x y : nat -> R) : R := sumn n (fun i => sumn n (fun j => x i * A i j * y j)).
(** a routine that inverts every invertible matrix, such as numpy.linalg.pinv; one that moreover returns inverses only, such as
    numpy.linalg.inv, which raises LinAlgError on a singular matrix *)
Definition inverts_all (inv : nat -> (nat -> nat -> R) -> option (nat -> nat -> R)) : Prop :=
  forall n A B, S_GP.right_inverse n A B -> exists C, inv n A = Some C /\ S_GP.right_inverse n A C.
Definition inverse_routine (inv : nat -> (nat -> nat -> R) -> option (nat -> nat -> R)) : Prop :=
  inverts_all inv /\ (forall n A C, inv n A = Some C -> S_GP.right_inverse n A C).
(** by how much the weights agree with a comparison: positive when the preferred point has the higher predicted value *)
Definition agreement (d : nat) (X : nat -> nat -> R) (p : pair) (w : list R) : R := dk_of p * sumn d (fun a => (X (v_of p) a - X (u_of p) a) * nth a w 0).
(** the compared points differ in directions that cover all weights *)
Definition spanning (d : nat) (r : list pair) (X : nat -> nat -> R) : Prop :=
  forall c, (exists i, (i < d)%nat /\ c i <> 0) -> exists p, In p r /\ sumn d (fun a => (X (v_of p) a - X (u_of p) a) * c a) <> 0.
(** comparisons only; ordinal labels only *)
Definition only (r : list pair) : labels := mkLabels (Some r) None None.
Definition ord_only (o : list (nat * nat)) : labels := mkLabels None (Some o) None.
