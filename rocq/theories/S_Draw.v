(** Specification vocabulary for the plot of centroids and principal axes. *)
From Coq Require Import String Reals List Permutation Sorted.
From Verif Require Import Base M_State M_Draw.
Import ListNotations.
Local Open Scope R_scope.

(** numpy sorts the rows by the first column (rows with equal first entries in any order). *)
Definition sorts (sort : list (R * R) -> list (R * R)) : Prop :=
  forall l, Permutation (sort l) l /\ StronglySorted (fun a b => fst a <= fst b) (sort l).
(** [p] is on the line through [c] in the direction [b]; in the closed box; on the segment from [a] to [b]. *)
Definition on_line (c b p : R * R) : Prop := (fst p - fst c) * snd b = (snd p - snd c) * fst b.
Definition in_box (l : limits) (p : R * R) : Prop := x_min l <= fst p <= x_max l /\ y_min l <= snd p <= y_max l.
Definition on_segment (a b p : R * R) : Prop :=
  exists t, 0 <= t <= 1 /\ fst p = fst a + t * (fst b - fst a) /\ snd p = snd a + t * (snd b - snd a).
(** The line drawn is the part inside the box of the line through [c] in the direction [b]. *)
Definition cuts_box (c b : R * R) (l : limits) (line : list (R * R)) : Prop :=
  exists p q, line = [p; q] /\ forall x, on_segment p q x <-> on_line c b x /\ in_box l x.
(** The points of plot_centroids: label and getter *)
Definition centroid_labels : list (string * getter) :=
  [("Elastic centroid", get_c); ("Shear centre", get_sc); ("Global plastic centroid", get_pc); ("Principal plastic centroid", get_pc_p)]%string.
