(** Normal density and distribution function of the probits. *)
From Verif Require Export M_RBase.
From Coquelicot Require Import Coquelicot.
From Verif Require Import M_RBase.
Local Open Scope R_scope.

(** ProbitBase.py:33-37 [std_norm_pdf] *)
Definition npdf (x : R) : R := exp (- (x ^ 2) / 2) / sqrt (2 * PI).
(** scipy.special.ndtr, called in ProbitBase.py:43: one half plus the integral of the density from 0 to x (the rounding of
    scipy's implementation is not modelled) *)
Definition ndtr (x : R) : R := 1 / 2 + RInt npdf 0 x.
(** numpy.clip *)
Definition rclip (lo hi x : R) : R := Rmin (Rmax x lo) hi.
(** ProbitBase.py:40-43 [std_norm_cdf] *)
Definition std_norm_cdf (x : R) : R := ndtr (rclip (-30) 100 x).
(** scipy.special.log_ndtr, called in PreferenceProbit.py:329 *)
Definition log_ndtr (x : R) : R := ln (ndtr x).
(** ProbitBase.py:48-63 [calc_pdf_cdf_ratio], first component; the second is its square.  The guards for a CDF of 0 and an
    infinite ratio (lines 57-61) are not modelled: the clipped CDF is never 0 (theorem C38_clipped). *)
Definition pdf_cdf_ratio (z : R) : R := npdf z / std_norm_cdf z.
