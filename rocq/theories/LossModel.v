(** Model of navlie/batch/losses.py over the real numbers. *)
From Coq Require Import Reals.
Local Open Scope R_scope.

(** losses.py:41-42 L2Loss.loss *)
Definition l2_loss (e : R) : R := (1/2) * e * e.
(** losses.py:44-45 L2Loss.weight *)
Definition l2_weight (e : R) : R := 1.
(** losses.py:52-68 CauchyLoss.loss *)
Definition cauchy_loss (c e : R) : R := ((1/2) * c ^ 2) * ln (1 + (e / c) ^ 2).
(** losses.py:70-84 CauchyLoss.weight *)
Definition cauchy_weight (c e : R) : R := 1 / (1 + (e / c) ^ 2).
