(** Specification vocabulary: panels of bonded layers (cross-laminated timber). *)
From Coq Require Import Reals List.
From Verif Require Import Base M_Fea M_Section S_Section M_Geometry M_Init S_Outline S_Composite S_PlasticForms.
Import ListNotations.
Local Open Scope R_scope.

(** The polygons of a compound, each with its material *)
Definition compound_regions (c : compound) : list region := map (fun gm => (mo_val (gm_mat gm), gm_poly gm)) (cp_geoms c).
(** The material of layer [k], counted from the top *)
Definition layer (mats : list mat_obj) (k : nat) : material := mo_val (nth k mats default_material).
(** Sum over the layers, weighted by a property of their material *)
Definition layer_sum (w : material -> R) (f : nat -> R) (mats : list mat_obj) : R := sumf (fun k => w (layer mats k) * f k) (seq 0 (length mats)).
(** The height of the middle of layer [k] when the layers have thickness [h] and the top of the panel is at y = 0 *)
Definition mid_height (h : R) (k : nat) : R := - (h * (INR k + 1 / 2)).
(** A property of the layers that reads the same from the bottom as from the top *)
Definition balanced (w : material -> R) (mats : list mat_obj) : Prop := forall k, (k < length mats)%nat -> w (layer mats k) = w (layer mats (length mats - 1 - k)).
(** The outline of a compound *)
Definition compound_edges (c : compound) : list edge := concat (map (fun q => poly_edges (fst q) (snd q)) (compound_regions c)).
(** The layers as rectangles *)
Definition layer_parts (h b : R) (mats : list mat_obj) : list part := map (fun k => (layer mats k, rect 0 (- (h * INR (S k))) b (- (h * INR k)))) (seq 0 (length mats)).
