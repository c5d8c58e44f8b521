(** C96: sections read from CAD files. *)
From Coquelicot Require Import Coquelicot.
From Coq Require Import Reals List Arith Lra Lia.
From Verif Require Import Base M_Fea M_Init M_Geometry S_Geometry P_Geometry P_Geometry3 M_SetOps S_SetOps P_SetOps P_Geometry5 P_Geometry6 P_Geometry8 P_Geometry9 T_Geometry M_Load.
Import ListNotations.
Local Open Scope R_scope.

(** [i] holds exactly the given polygons, in the order of the file, each as a region of the default material: a Geometry for one
    polygon, a CompoundGeometry with the points, facets and control points of its regions for several. *)
Definition loads (sh : shapely) (ps : list polygon) (i : item) : Prop :=
  Forall2 (shows sh default_material) ps (members_of i) /\
  (length ps = 1%nat -> exists g, i = ISingle g) /\
  (length ps <> 1%nat -> exists c, i = ICompound c /\
     cp_control c = concat (map gm_control (cp_geoms c)) /\
     edges (cp_points c) (cp_facets c) = concat (map (fun g => edges (gm_points g) (gm_facets g)) (cp_geoms c))).

Lemma polygons_shows sh ps : Forall2 (shows sh default_material) ps (cp_geoms (compound_of_polygons sh ps)).
Proof.
  destruct (C51_compile sh (map (fun p => new_geometry sh p default_material None 12) ps)) as (_ & _ & _ & _ & _ & E).
  { apply Forall_forall. intros g H. apply in_map_iff in H. destruct H as (p & <- & _). apply new_is_geometry. }
  unfold compound_of_polygons. rewrite E. clear E. induction ps as [|p ps IH]; [constructor|]. cbn [map]. constructor; [apply new_shows|exact IH].
Qed.
Lemma compound_loads sh ps : length ps <> 1%nat -> loads sh ps (ICompound (compound_of_polygons sh ps)).
Proof.
  intros N. split; [apply polygons_shows|]. split; [contradiction|]. intros _. eexists. split; [reflexivity|].
  destruct (C51_compile sh (map (fun p => new_geometry sh p default_material None 12) ps)) as (_ & _ & _ & F & C & E).
  { apply Forall_forall. intros g H. apply in_map_iff in H. destruct H as (p & <- & _). apply new_is_geometry. }
  unfold compound_of_polygons. rewrite E. auto.
Qed.
Lemma single_loads sh p : loads sh [p] (ISingle (new_geometry sh p default_material None 12)).
Proof. split; [constructor; [apply new_shows|constructor]|]. split; [eexists; reflexivity|]. cbn [length]. lia. Qed.

Theorem C96_dxf : forall sh ps, ps <> [] -> exists i, load_dxf sh (Some (map FPolygon ps)) = Ok i /\ loads sh ps i.
Proof.
  intros sh ps N. assert (A : all_polygons (map FPolygon ps) = Ok ps). { clear N. induction ps as [|p ps IH]; [reflexivity|]. cbn [map all_polygons]. rewrite IH. reflexivity. }
  unfold load_dxf. destruct ps as [|p ps]; [contradiction|]. cbn [map] in *. rewrite A. cbn [bind]. destruct ps as [|q ps].
  - eexists. split; [reflexivity|]. apply single_loads.
  - eexists. split; [reflexivity|]. apply compound_loads. cbn [length]. lia.
Qed.
(** ValueError if the file does not exist; RuntimeError if nothing is found or something found is not a polygon; nothing else fails. *)
Theorem C96_dxf_errors : forall sh, load_dxf sh None = Err ValueError /\
  forall l e, load_dxf sh (Some l) = Err e <-> e = RuntimeError /\ (l = [] \/ In FOther l).
Proof.
  intros sh. split; [reflexivity|]. intros l e.
  assert (A : (exists ps, l = map FPolygon ps) \/ In FOther l /\ all_polygons l = Err RuntimeError).
  { induction l as [|[p|] l IH]; [left; exists []; reflexivity| |right; split; [left; reflexivity|reflexivity]].
    destruct IH as [(ps & ->)|(I & E)]; [left; exists (p :: ps); reflexivity|]. right. split; [right; exact I|]. cbn [all_polygons]. rewrite E. reflexivity. }
  destruct A as [(ps & ->)|(I & E)].
  - destruct ps as [|p ps]; [cbn; split; [intros H; injection H as <-; auto|intros [-> _]; reflexivity]|].
    destruct (C96_dxf sh (p :: ps) ltac:(discriminate)) as (i & -> & _). split; [discriminate|]. intros [_ [H|H]]; [discriminate|]. exfalso.
    apply in_map_iff in H. destruct H as (q & H & _). discriminate.
  - unfold load_dxf. destruct l as [|x l]; [destruct I|]. rewrite E. cbn [bind]. split; [intros H; injection H as <-; auto|intros [-> _]; reflexivity].
Qed.
(** Geometry.from_3dm: the polygon of the file if there is exactly one, RuntimeError otherwise. *)
Theorem C96_3dm : forall sh ps,
  (forall p, ps = [p] -> exists g, geometry_from_3dm sh ps = Ok g /\ shows sh default_material p g) /\
  (length ps <> 1%nat -> geometry_from_3dm sh ps = Err RuntimeError).
Proof.
  intros sh ps. split.
  - intros p ->. eexists. split; [reflexivity|apply new_shows].
  - intros N. destruct ps as [|p [|q ps]]; [reflexivity|cbn [length] in N; lia|reflexivity].
Qed.
(** CompoundGeometry.from_3dm: all polygons of the file, RuntimeError only if there are none. *)
Theorem C96_compound_3dm : forall sh ps,
  (ps <> [] -> exists c, compound_from_3dm sh ps = Ok c /\ Forall2 (shows sh default_material) ps (cp_geoms c) /\ (length ps <> 1%nat -> loads sh ps (ICompound c))) /\
  compound_from_3dm sh [] = Err RuntimeError.
Proof.
  intros sh ps. split; [|reflexivity]. intros N. destruct ps as [|p ps]; [contradiction|]. eexists. split; [reflexivity|]. split; [apply polygons_shows|apply compound_loads].
Qed.
(** Geometry.from_rhino_encoding: the polygon of the string; RuntimeError if there is none. *)
Theorem C96_encoding : forall sh, (forall p, exists g, from_rhino_encoding sh [p] = Ok g /\ shows sh default_material p g) /\ from_rhino_encoding sh [] = Err RuntimeError.
Proof. intros sh. split; [|reflexivity]. intros p. eexists. split; [reflexivity|apply new_shows]. Qed.
(** Further surfaces in the string are left out without a message. *)
Theorem C96_encoding_refuted : exists sh ps g, from_rhino_encoding sh ps = Ok g /\ length ps = 2%nat /\ sumf poly_area ps = 5 /\ poly_area (gm_poly g) = 1.
Proof.
  assert (A : forall a b c d, ring_area (box a b c d) = IZR (c - a) * IZR (d - b)).
  { intros a b c d. rewrite !minus_IZR. unfold ring_area, box, ipt, cross. cbn [around shoelace fst snd]. field. }
  assert (P : forall a b c d, (a <= c)%Z -> (b <= d)%Z -> poly_area (mkPoly (box a b c d) []) = IZR (c - a) * IZR (d - b)).
  { intros a b c d H1 H2. assert (0 <= IZR (c - a) * IZR (d - b)) by (apply Rmult_le_pos; apply IZR_le; lia). unfold poly_area, M_Geometry.orient. cbn [ext ints]. rewrite A. unfold sumf. cbn [map Rsum fold_right]. match goal with |- context [Rlt_dec ?x ?y] => destruct (Rlt_dec x y) end; lra. }
  exists toy, [mkPoly (box 0 0 1 1) []; mkPoly (box 5 5 7 7) []]. eexists. split; [reflexivity|]. split; [reflexivity|]. split.
  - unfold sumf. cbn [map Rsum fold_right]. rewrite !P by lia. cbn. lra.
  - rewrite box_poly, P by lia. cbn. lra.
Qed.
(** Two squares of a file. *)
Example C96_met : exists c, load_dxf toy (Some (map FPolygon [mkPoly (box 0 0 1 1) []; mkPoly (box 5 5 7 7) []])) = Ok (ICompound c) /\
  map gm_poly (cp_geoms c) = [mkPoly (box 0 0 1 1) []; mkPoly (box 5 5 7 7) []] /\ map gm_mat (cp_geoms c) = [default_material; default_material].
Proof.
  eexists. split; [reflexivity|]. unfold compound_of_polygons. cbn [map]. rewrite compile_geoms. cbn [map]. rewrite !box_poly by lia. split; [reflexivity|].
  destruct (new_geometry_poly toy (mkPoly (box 0 0 1 1) []) default_material None 12) as (_ & -> & _). destruct (new_geometry_poly toy (mkPoly (box 5 5 7 7) []) default_material None 12) as (_ & -> & _). reflexivity.
Qed.

Print Assumptions C96_dxf.
Print Assumptions C96_dxf_errors.
Print Assumptions C96_3dm.
Print Assumptions C96_compound_3dm.
Print Assumptions C96_encoding.
Print Assumptions C96_encoding_refuted.
