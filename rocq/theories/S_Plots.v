(** Specification vocabulary for the plots. *)
From Coq Require Import String Reals List Sorted Bool.
From Verif Require Import Base M_Fea M_Init S_Init M_Section M_Stress M_StressPost S_StressPost M_Geometry S_Geometry M_Plots.
Import ListNotations.
Local Open Scope string_scope.
Local Open Scope R_scope.

(** The documented values of [stress]: an action ("" for all actions) and a direction. *)
Definition documented : list (string * string) :=
  [("n", "zz"); ("mxx", "zz"); ("myy", "zz"); ("m11", "zz"); ("m22", "zz"); ("m", "zz"); ("mzz", "zx"); ("mzz", "zy"); ("mzz", "zxy");
   ("vx", "zx"); ("vx", "zy"); ("vx", "zxy"); ("vy", "zx"); ("vy", "zy"); ("vy", "zxy"); ("v", "zx"); ("v", "zy"); ("v", "zxy");
   ("", "zz"); ("", "zx"); ("", "zy"); ("", "zxy"); ("", "11"); ("", "33"); ("", "vm")].
(** plot_stress("(action)_(direction)"), get_stress()[...]["sig_(direction)_(action)"] *)
Definition plot_name (q : string * string) : string := if fst q =? "" then snd q else fst q ++ "_" ++ snd q.
Definition stress_key (q : string * string) : string := "sig_" ++ snd q ++ (if fst q =? "" then "" else "_" ++ fst q).
(** The documented values of [stress] for vectors: the action *)
Definition documented_vectors : list string := ["mzz"; "vx"; "vy"; "v"; ""].

(** The material is to be plotted: no list, an empty list, or one that holds the object or an equal one. *)
Definition wanted (material_list : option (list mat_obj)) (m : mat_obj) : Prop :=
  material_list = None \/ material_list = Some [] \/ exists l x, material_list = Some l /\ In x l /\ (same_object m x \/ same_fields m x).
(** The material groups that are plotted, by number, in order *)
Definition plotted_groups (s : section_obj) (material_list : option (list mat_obj)) (ks : list nat) : Prop :=
  StronglySorted lt ks /\ forall k, In k ks <-> exists m els, nth_error (s_groups s) k = Some (m, els) /\ wanted material_list m.
(** 15 equally spaced numbers from a to b *)
Definition spaced (a b : R) (v : list R) : Prop := length v = 15%nat /\ nth_error v 0 = Some a /\ nth_error v 14 = Some b /\
  forall i x y, nth_error v i = Some x -> nth_error v (S i) = Some y -> y - x = (b - a) / 14.
(** The levels for the limits a and b: spaced, unless they are (nearly) the same *)
Definition levels_for (a b : R) (lv : levels) : Prop :=
  (Rabs (a - b) <= / 10 ^ 12 + / 10 ^ 5 * Rabs b /\ lv = Automatic 15) \/ (/ 10 ^ 12 + / 10 ^ 5 * Rabs b < Rabs (a - b) /\ exists v, spaced a b v /\ lv = Given v).
(** The least and the greatest number in some lists *)
Definition least (ls : list (list R)) (a : R) : Prop := (exists l, In l ls /\ In a l) /\ forall l x, In l ls -> In x l -> a <= x.
Definition greatest (ls : list (list R)) (a : R) : Prop := (exists l, In l ls /\ In a l) /\ forall l x, In l ls -> In x l -> x <= a.
(** Each node is the middle of a side of at most two triangles, and the three sides of a triangle have different middles. *)
Definition mids (c : conn6) : list nat := [c3 c; c4 c; c5 c].
Definition conforming (rows : list conn6) : Prop := (forall c, In c rows -> NoDup (mids c)) /\ forall i, (count_occ Nat.eq_dec (concat (map mids rows)) i <= 2)%nat.

(** ** The mesh and the geometry *)
(** Two materials that a user cannot tell apart: the same object or the same fields *)
Definition alike (a b : mat_obj) : Prop := same_object a b \/ same_fields a b.
(** The lines, markers of a style, numbers and legend labels among the marks *)
Definition lines_of (l : list mark) : list (R * R * (R * R)) := concat (map (fun m => match m with Line a b _ => [(a, b)] | _ => [] end) l).
Definition markers_of (style : string) (l : list mark) : list (R * R) := concat (map (fun m => match m with Marker st a _ => if st =? style then [a] else [] | _ => [] end) l).
Definition numbers_of (l : list mark) : list (nat * (R * R)) := concat (map (fun m => match m with Number i a => [(i, a)] | _ => [] end) l).
Definition labels_of (l : list mark) : list string := concat (map (fun m => match m with Line _ _ (Some s) | Marker _ _ (Some s) => [s] | _ => [] end) l).
(** numbered 0, 1, 2, ... *)
Definition numbered {A : Type} (l : list A) : list (nat * A) := combine (seq 0 (length l)) l.
(** The numbers to be shown for an entry of [labels] *)
Definition numbers_for (points : list (R * R)) (facets : list (nat * nat)) (holes control_points : list (R * R)) (label : string) : list (nat * (R * R)) :=
  if label =? "control_points" then numbered control_points else if label =? "points" then numbered points else
  if label =? "facets" then numbered (map (fun e => midpoint (fst e) (snd e)) (edges points facets)) else if label =? "holes" then numbered holes else [].
(** One entry in the legend, if there is something to name *)
Definition entry_for {A : Type} (name : string) (l : list A) : list string := match l with [] => [] | _ => [name] end.
