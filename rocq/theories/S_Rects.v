(** Specification vocabulary: the plastic moment of a section made of rectangles of any materials. *)
From Coquelicot Require Import Coquelicot.
From Coq Require Import Reals List.
From Verif Require Import Base M_Fea S_Outline S_PlasticForms.
Import ListNotations.
Local Open Scope R_scope.

(** The lengths of the interval from [lo] to [hi] above and below [d] *)
Definition length_above (d lo hi : R) : R := Rmax hi d - Rmax lo d.
Definition length_below (d lo hi : R) : R := Rmin hi d - Rmin lo d.
(** The horizontal line at height [d] (the vertical line at [d]) has the same yield force on both sides. *)
Definition horizontal_axis (ps : list part) (d : R) : Prop :=
  sumf (fun q => m_fy (fst q) * r_w (snd q) * length_above d (r_y1 (snd q)) (r_y2 (snd q))) ps = sumf (fun q => m_fy (fst q) * r_w (snd q) * length_below d (r_y1 (snd q)) (r_y2 (snd q))) ps.
Definition vertical_axis (ps : list part) (d : R) : Prop :=
  sumf (fun q => m_fy (fst q) * r_h (snd q) * length_above d (r_x1 (snd q)) (r_x2 (snd q))) ps = sumf (fun q => m_fy (fst q) * r_h (snd q) * length_below d (r_x1 (snd q)) (r_x2 (snd q))) ps.
(** Yield stress times distance from the axis, integrated over the section *)
Definition moment_about_horizontal (ps : list part) (d : R) : R := sumf (fun q => m_fy (fst q) * r_w (snd q) * RInt (fun y => Rabs (y - d)) (r_y1 (snd q)) (r_y2 (snd q))) ps.
Definition moment_about_vertical (ps : list part) (d : R) : R := sumf (fun q => m_fy (fst q) * r_h (snd q) * RInt (fun x => Rabs (x - d)) (r_x1 (snd q)) (r_x2 (snd q))) ps.
(** Rectangles of positive width and height *)
Definition proper_part (q : part) : Prop := 0 < r_w (snd q) /\ 0 < r_h (snd q) /\ 0 <= m_fy (fst q).
