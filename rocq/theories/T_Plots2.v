(** The plots of the mesh and of the warping function (C86) and of the geometry (C87). *)
From Coq Require Import String Reals List Bool Arith Lra Lia.
From Verif Require Import Base M_Fea M_Section M_Init S_Fem S_Init P_Init T_Init M_Geometry S_Geometry P_Geometry6 P_Geometry3 P_Geometry8 T_Geometry M_Props M_State S_State T_State M_Plots S_Plots P_Plots3 P_Plots4 P_Mask.
Import ListNotations.
Local Open Scope string_scope.
Local Open Scope R_scope.

(** ** C86: plot_mesh *)

(** Each triangle of the mesh is drawn between its corners and filled with the colour of the material of its own region. The hypotheses are those of a mesh:
    rows in the mesher's order, and a middle node belongs to at most two triangles. *)
Theorem C86_mesh_colors : forall m mats s, mesher_mesh m -> conforming (rm_triangles m) -> rm_triangles m <> [] -> section_init (Some m) mats = Ok s ->
  exists p l, plot_mesh s true = Ok p /\ mp_fill p = Some (ByTriangle l) /\ length (mp_triangles p) = length (rm_triangles m) /\ length l = length (rm_triangles m) /\
  forall i row k, nth_error (rm_triangles m) i = Some row -> nth_error (rm_attributes m) i = Some k ->
    (let P j := nth j (rm_vertices m) (0, 0) in nth_error (mp_triangles p) i = Some (P (c0 row), P (c1 row), P (c2 row))) /\
    exists a, nth_error mats k = Some a /\ nth_error l i = Some (Some (mo_color a)).
Proof.
  intros m mats s MM C N HS. rewrite (mesh_plotted m mats s MM C N HS). eexists. eexists. split; [reflexivity|]. cbn [mp_fill mp_triangles]. split; [reflexivity|].
  destruct (init_ok _ _ _ HS) as (m' & Em & _ & Lm & _ & _ & Ee & _). injection Em as <-. assert (Le : length (s_els s) = length (rm_triangles m)) by (rewrite Ee; apply build_length).
  split; [unfold triangulation; rewrite map_length; exact Le|]. split; [rewrite map_length; exact Le|]. intros i row k Hr Hk. split; [apply (mesh_triangles m mats s i row HS Hr)|].
  assert (Lk : (k < length mats)%nat) by (rewrite Lm; pose proof (list_max_in _ _ (nth_error_In _ _ Hk)); lia).
  destruct (nth_error mats k) as [a|] eqn:Ea; [|apply nth_error_None in Ea; lia]. exists a. split; [reflexivity|].
  destruct (nth_error (s_els s) i) as [e|] eqn:Hi; [|rewrite Ee, build_nth, Hr in Hi; discriminate Hi]. rewrite nth_error_map, Hi. cbn [option_map]. do 3 f_equal.
  rewrite Ee, build_nth, Hr in Hi. injection Hi as <-. unfold build_element. cbn [e_mat]. cbn [Nat.add].
  rewrite (nth_error_nth _ _ _ Hk). apply (nth_error_nth mats k default_material) in Ea. exact Ea.
Qed.
(** The legend has one entry for each of the different materials, and an entry for every material. *)
Theorem C86_mesh_legend : forall m mats s p, mesher_mesh m -> conforming (rm_triangles m) -> rm_triangles m <> [] -> section_init (Some m) mats = Ok s -> plot_mesh s true = Ok p ->
  exists shown, mp_legend p = map (fun a => (mo_color a, mo_name a)) shown /\ incl shown mats /\ ForallOrdPairs (fun a b => ~ alike b a) shown /\
  (coherent mats -> forall a, In a mats -> exists b, In b shown /\ same_fields a b).
Proof.
  intros m mats s p MM C N HS E. rewrite (mesh_plotted m mats s MM C N HS) in E. injection E as <-. cbn [mp_legend]. exists (group_materials [] mats). split; [reflexivity|].
  destruct (not_alike [] mats) as (_ & A & B). split; [exact B|]. split; [exact A|]. intros Co a Ha. destruct (all_listed mats [] Co a Ha) as (x & [[]|Hx] & F). exists x. auto.
Qed.
(** With materials=False, the triangles alone. *)
Theorem C86_mesh_lines : forall m mats s, section_init (Some m) mats = Ok s -> exists p, plot_mesh s false = Ok p /\ mp_fill p = None /\ mp_legend p = [] /\ length (mp_triangles p) = length (rm_triangles m) /\
  forall i row, nth_error (rm_triangles m) i = Some row -> let P j := nth j (rm_vertices m) (0, 0) in nth_error (mp_triangles p) i = Some (P (c0 row), P (c1 row), P (c2 row)).
Proof.
  intros m mats s HS. eexists. split; [reflexivity|]. cbn [mp_fill mp_legend mp_triangles]. destruct (init_ok _ _ _ HS) as (m' & Em & _ & _ & _ & _ & Ee & _). injection Em as <-.
  split; [reflexivity|]. split; [reflexivity|]. split; [unfold triangulation; rewrite map_length, Ee; apply build_length|]. intros i row. apply (mesh_triangles m mats s i row HS).
Qed.

(** *** With a mask *)

(** The entries of a list at which the mask is False, in their order *)
Definition shown {A : Type} (mask : list bool) (l : list A) : list A := map snd (filter (fun q => negb (fst q)) (combine mask l)).
(** A mask needs an entry for each triangle; the triangles drawn are those at which it is False, with or without the colours of the materials. *)
Theorem C86_mask_length : forall m mats s materials mask, section_init (Some m) mats = Ok s -> length mask <> length (rm_triangles m) -> plot_mesh_masked s materials mask = Err ValueError.
Proof.
  intros m mats s b mask HS L. destruct (init_ok _ _ _ HS) as (m' & Em & _ & _ & _ & _ & Ee & _). injection Em as <-. unfold plot_mesh_masked.
  destruct (Nat.eqb_spec (length mask) (length (s_els s))) as [E|_]; [|reflexivity]. rewrite Ee, build_length in E. contradiction.
Qed.
Theorem C86_mask_triangles : forall m mats s materials mask p, section_init (Some m) mats = Ok s -> plot_mesh_masked s materials mask = Ok p ->
  let P j := nth j (rm_vertices m) (0, 0) in mp_triangles p = shown mask (map (fun row => (P (c0 row), P (c1 row), P (c2 row))) (rm_triangles m)).
Proof.
  intros m mats s b mask p HS E. cbv zeta. unfold shown. rewrite <- unmasked_filter. replace (map _ (rm_triangles m)) with (triangulation s).
  - unfold plot_mesh_masked in E. destruct (negb _); [discriminate E|]. destruct (_ && _); [|injection E as <-; reflexivity].
    cbv zeta in E. destruct (tripcolor_masked _ _ _ _ _); [|discriminate E]. injection E as <-. reflexivity.
  - apply nth_ext_list. intros i. rewrite nth_error_map. destruct (nth_error (rm_triangles m) i) as [row|] eqn:Hr; [exact (mesh_triangles m mats s i row HS Hr)|].
    destruct (init_ok _ _ _ HS) as (m' & Em & _ & _ & _ & _ & Ee & _). injection Em as <-. apply nth_error_None. unfold triangulation. rewrite map_length, Ee, build_length. apply nth_error_None, Hr.
Qed.
(** If the first and the last triangle are shown, every triangle shown has the colour of the material of its own region. *)
Theorem C86_mask_colors : forall m mats s mask, mesher_mesh m -> conforming (rm_triangles m) -> rm_triangles m <> [] -> section_init (Some m) mats = Ok s ->
  length mask = length (rm_triangles m) -> nth_error mask 0 = Some false -> nth_error mask (length (rm_triangles m) - 1) = Some false ->
  exists p, plot_mesh_masked s true mask = Ok p /\ mp_fill p = Some (ByTriangle (shown mask (map (fun k => option_map mo_color (nth_error mats k)) (rm_attributes m)))).
Proof.
  intros m mats s mask MM C N HS L K0 K1. rewrite (mask_plotted m mats s mask MM C N HS L K0 K1). eexists. split; [reflexivity|]. cbn [mp_fill]. unfold shown. rewrite <- unmasked_filter. do 3 f_equal.
  destruct (init_ok _ _ _ HS) as (m' & Em & La & Lm & _ & _ & Ee & _). injection Em as <-. apply nth_ext_list. intros i. rewrite !nth_error_map. rewrite Ee, build_nth.
  destruct (nth_error (rm_triangles m) i) as [row|] eqn:Hr.
  - destruct (nth_error (rm_attributes m) i) as [k|] eqn:Hk.
    + cbn [option_map]. unfold build_element. cbn [e_mat]. cbn [Nat.add]. rewrite (nth_error_nth _ _ _ Hk).
      assert (Lk : (k < length mats)%nat) by (rewrite Lm; pose proof (list_max_in _ _ (nth_error_In _ _ Hk)); lia). rewrite (nth_error_nth' _ default_material Lk). reflexivity.
    + apply nth_error_None in Hk. assert (i < length (rm_triangles m))%nat by (apply nth_error_Some; rewrite Hr; discriminate). destruct MM as (MA & _). lia.
  - apply nth_error_None in Hr. rewrite (proj2 (nth_error_None (rm_attributes m) i)); [reflexivity|]. destruct MM as (MA & _). lia.
Qed.

(** ** plot_warping_function *)

(** After any history the values drawn are those of the warping function of the section, if a warping or a frame analysis succeeded; RuntimeError if there was none. *)
Theorem C86_warping : forall l query g s st h c lines, built g s -> Forall (uses st) h -> (c = CWarping st \/ c = CFrame st) -> succeeded l query (mkWorld g s no_props) h c ->
  exists om j, the_torsion l s st = Ok (om, j) /\ plot_warping_function (run l query (mkWorld g s no_props) h) lines = Ok (triangulation s, om, lines).
Proof. exact warping_plotted. Qed.
Theorem C86_no_warping : forall l query g s h lines, (forall st, ~ In (CWarping st) h /\ ~ In (CFrame st) h) ->
  plot_warping_function (run l query (mkWorld g s no_props) h) lines = Err RuntimeError.
Proof. exact warping_missing. Qed.

(** A mesh of two triangles of two materials meets the hypotheses. *)
Example C86_met : exists s, mesher_mesh ex_raw /\ conforming (rm_triangles ex_raw) /\ rm_triangles ex_raw <> [] /\ section_init (Some ex_raw) [ex_steel 1; ex_timber 2] = Ok s /\
  coherent [ex_steel 1; ex_timber 2] /\
  exists p, plot_mesh s true = Ok p /\ mp_fill p = Some (ByTriangle [Some "grey"; Some "burlywood"]) /\ mp_legend p = [("grey", "steel"); ("burlywood", "timber")].
Proof.
  assert (C : conforming (rm_triangles ex_raw)).
  { split.
    - intros c [<-|[<-|[]]]; unfold mids; cbn; repeat (constructor; [cbn; intros H; repeat (destruct H as [H|H]; [discriminate H|]); exact H|]); constructor.
    - intros i. cbn [rm_triangles ex_raw map concat mids c3 c4 c5 app]. do 9 (destruct i as [|i]; [cbn; lia|]). cbn. lia. }
  assert (N : rm_triangles ex_raw <> []) by discriminate. assert (HS : exists s, section_init (Some ex_raw) [ex_steel 1; ex_timber 2] = Ok s) by (eexists; reflexivity). destruct HS as [s HS]. exists s.
  split; [exact ex_raw_ok|]. split; [exact C|]. split; [exact N|]. split; [exact HS|]. split.
  - intros a b [<-|[<-|[]]] [<-|[<-|[]]] H; try reflexivity; discriminate H.
  - rewrite (mesh_plotted _ _ _ ex_raw_ok C N HS). eexists. split; [reflexivity|]. cbn [mp_fill mp_legend]. unfold section_init in HS. cbn [rm_attributes ex_raw] in HS. change (Nat.eqb (length [ex_steel 1; ex_timber 2]) (list_max [0; 1]%nat + 1)) with true in HS. cbv iota zeta in HS. injection HS as <-.
    split; reflexivity.
Qed.
Example C86_warping_met : exists l query s h, built ex_geometry s /\ Forall (uses "direct") h /\ succeeded l query (mkWorld ex_geometry s no_props) h (CWarping "direct").
Proof. destruct ex_history as (l & query & s & h & B & U & _ & S & _). exists l, query, s, h. auto. Qed.

(** If the first triangle is masked, the colours of the others are those of other regions: the first triangle is of timber and the two others of steel. With the
    first one masked, the next is drawn in the colour of timber, which is not in the picture. *)
Definition three_raw : raw_mesh :=
  mkRaw [(0,0); (4,0); (4,2); (0,2); (2,0); (4,1); (2,1); (2,2); (0,1); (6,0); (5,1); (5,0)]
    [mkConn 0 2 3 7 8 6; mkConn 0 1 2 5 6 4; mkConn 1 9 2 10 5 11] [1; 0; 0]%nat.
Lemma three_ok : mesher_mesh three_raw.
Proof.
  split; [reflexivity|]. intros row [<-|[<-|[<-|[]]]].
  - split; [|split; [change (NoDup [0;2;3;7;8;6]%nat); repeat (apply NoDup_cons; [cbn [In]; lia|]); apply NoDup_nil|]].
    + unfold mesher_row, midpoint, S_Integral.orient, three_raw. cbn [rm_vertices nth c0 c1 c2 c3 c4 c5 fst snd].
      split; [f_equal; lra|split; [f_equal; lra|split; [f_equal; lra|lra]]].
    + intros k. change (In k [0;2;3;7;8;6]%nat -> (k < 12)%nat). cbn [In]. lia.
  - split; [|split; [change (NoDup [0;1;2;5;6;4]%nat); repeat (apply NoDup_cons; [cbn [In]; lia|]); apply NoDup_nil|]].
    + unfold mesher_row, midpoint, S_Integral.orient, three_raw. cbn [rm_vertices nth c0 c1 c2 c3 c4 c5 fst snd].
      split; [f_equal; lra|split; [f_equal; lra|split; [f_equal; lra|lra]]].
    + intros k. change (In k [0;1;2;5;6;4]%nat -> (k < 12)%nat). cbn [In]. lia.
  - split; [|split; [change (NoDup [1;9;2;10;5;11]%nat); repeat (apply NoDup_cons; [cbn [In]; lia|]); apply NoDup_nil|]].
    + unfold mesher_row, midpoint, S_Integral.orient, three_raw. cbn [rm_vertices nth c0 c1 c2 c3 c4 c5 fst snd].
      split; [f_equal; lra|split; [f_equal; lra|split; [f_equal; lra|lra]]].
    + intros k. change (In k [1;9;2;10;5;11]%nat -> (k < 12)%nat). cbn [In]. lia.
Qed.
Lemma three_conforming : conforming (rm_triangles three_raw).
Proof.
  split.
  - intros c [<-|[<-|[<-|[]]]]; unfold mids; cbn; repeat (constructor; [cbn; intros H; repeat (destruct H as [H|H]; [discriminate H|]); exact H|]); constructor.
  - intros i. cbn [rm_triangles three_raw map concat mids c3 c4 c5 app]. do 12 (destruct i as [|i]; [cbn; lia|]). cbn. lia.
Qed.
Theorem C86_mask_colors_refuted : exists m mats s mask p, mesher_mesh m /\ conforming (rm_triangles m) /\ section_init (Some m) mats = Ok s /\ length mask = length (rm_triangles m) /\
  plot_mesh_masked s true mask = Ok p /\
  shown mask (map (fun k => option_map mo_color (nth_error mats k)) (rm_attributes m)) = [Some "grey"; Some "grey"] /\
  mp_fill p = Some (ByTriangle [Some "burlywood"; Some "grey"]).
Proof.
  assert (HS : exists s, section_init (Some three_raw) [ex_steel 1; ex_timber 2] = Ok s) by (eexists; reflexivity). destruct HS as [s HS].
  assert (Ec : map (fun e => mo_color (e_mat e)) (s_els s) = ["burlywood"; "grey"; "grey"]) by (injection HS as <-; reflexivity).
  assert (En : length (s_nodes s) = 12%nat) by (injection HS as <-; reflexivity). assert (Ee : length (s_els s) = 3%nat) by (injection HS as <-; reflexivity).
  assert (Em : s_mats s = [ex_steel 1; ex_timber 2]) by (injection HS as <-; reflexivity).
  exists three_raw, [ex_steel 1; ex_timber 2], s, [true; false; false]. eexists. split; [exact three_ok|]. split; [exact three_conforming|]. split; [exact HS|]. split; [reflexivity|].
  split; [|split; [reflexivity|]].
  - unfold plot_mesh_masked. rewrite Ec, En, Ee, Em. cbn [length Nat.eqb negb andb]. cbv zeta. unfold tripcolor_masked. cbn [seq map length Nat.eqb unmasked].
    set (kept := [INR 1; INR 2]). assert (E0 : min_of kept = Ok 1) by (cbn; f_equal; apply Rmin_left; lra). assert (E1 : max_of kept = Ok 2) by (cbn; f_equal; rewrite Rmax_right; lra).
    change (match kept with [] => _ | _ => ?x end) with x. rewrite E0, E1. cbn [bind]. reflexivity.
  - cbn [mp_fill map]. unfold listed_color. cbn [length INR]. destruct (Req_EM_T 1 2) as [E|_]; [lra|].
    replace ((1 - 1) / (2 - 1) * (1 + 1 + 1)) with 0 by field. replace ((1 + 1 - 1) / (2 - 1) * (1 + 1 + 1)) with (1 + 1 + 1) by field.
    destruct (Req_EM_T 0 (1 + 1 + 1)) as [E|_]; [lra|]. destruct (Req_EM_T (1 + 1 + 1) (1 + 1 + 1)) as [_|X]; [|contradiction X; reflexivity].
    rewrite (Int_part_between 0 0) by (cbn [INR]; lra). reflexivity.
Qed.

(** With the middle one masked, the two others have their own colours. *)
Example C86_mask_met : exists s p, section_init (Some three_raw) [ex_steel 1; ex_timber 2] = Ok s /\ plot_mesh_masked s true [false; true; false] = Ok p /\
  mp_fill p = Some (ByTriangle [Some "burlywood"; Some "grey"]).
Proof.
  assert (HS : exists s, section_init (Some three_raw) [ex_steel 1; ex_timber 2] = Ok s) by (eexists; reflexivity). destruct HS as [s HS].
  destruct (C86_mask_colors three_raw _ s [false; true; false] three_ok three_conforming ltac:(discriminate) HS eq_refl eq_refl eq_refl) as (p & Ep & Ef). exists s, p. auto.
Qed.

(** ** C87: plot_geometry *)

(** The lines are the facets; a cross marks each hole and a dot each control point (if asked for); each entry of the legend appears once; the numbers asked for are
    those of the lists. *)
Theorem C87_marks : forall points facets holes control_points labels cp, Forall (fun f => (fst f < length points)%nat /\ (snd f < length points)%nat) facets ->
  exists l, plot_geometry points facets holes control_points labels cp = Ok l /\
  lines_of l = edges points facets /\ markers_of "rx" l = holes /\ markers_of "bo" l = (if cp then control_points else []) /\ (forall st, st <> "rx" -> st <> "bo" -> markers_of st l = []) /\
  numbers_of l = concat (map (numbers_for points facets holes control_points) labels) /\
  labels_of l = (entry_for "Points & Facets" facets ++ entry_for "Holes" holes ++ (if cp then entry_for "Control Points" control_points else []))%list.
Proof. intros points facets holes cps labels cp F. eexists. split; [apply (plot_made _ _ _ _ _ _ F)|]. apply (geometry_marks _ _ _ _ labels cp _ F). apply (plot_made _ _ _ _ _ _ F). Qed.
Theorem C87_dangling : forall points facets holes control_points labels cp, ~ Forall (fun f => (fst f < length points)%nat /\ (snd f < length points)%nat) facets ->
  plot_geometry points facets holes control_points labels cp = Err IndexError.
Proof. exact plot_refused. Qed.
(** A Geometry: the outline of its polygon, a cross in each of its holes. *)
Theorem C87_geometry : forall sh g labels cp, is_geometry sh g -> exists l, plot_geometry (gm_points g) (gm_facets g) (gm_holes g) (gm_control g) labels cp = Ok l /\
  lines_of l = concat (map ring_edges (rings (gm_poly g))) /\ markers_of "rx" l = map (fun h => sh_rep sh (mkPoly h [])) (ints (gm_poly g)) /\
  markers_of "bo" l = (if cp then gm_control g else []).
Proof.
  intros sh g labels cp G. destruct (C50_geometry_edges sh g G) as (_ & E & A & B). rewrite <- E, <- (geometry_holes sh g G).
  assert (F : Forall (fun f => (fst f < length (gm_points g))%nat /\ (snd f < length (gm_points g))%nat) (gm_facets g)).
  { apply Forall_forall. intros f Hf. assert (I : forall i, In i (seq 0 (length (gm_points g))) -> (i < length (gm_points g))%nat) by (intros i Hi; apply in_seq in Hi; lia).
    split; apply I; [rewrite <- A; apply in_map, Hf|]. eapply Permutation.Permutation_in; [exact B|]. apply in_map, Hf. }
  destruct (C87_marks (gm_points g) (gm_facets g) (gm_holes g) (gm_control g) labels cp F) as (l & El & L & H & C & _). exists l. auto.
Qed.
(** A CompoundGeometry: the outlines of all its members. *)
Theorem C87_compound : forall sh gs labels cp, Forall (is_geometry sh) gs -> let c := compile_compound sh gs in
  exists l, plot_geometry (cp_points c) (cp_facets c) (cp_holes c) (cp_control c) labels cp = Ok l /\
  lines_of l = concat (map (fun g => concat (map ring_edges (rings (gm_poly g)))) gs) /\ markers_of "rx" l = cp_holes c /\ markers_of "bo" l = (if cp then concat (map gm_control gs) else []).
Proof.
  intros sh gs labels cp G c. destruct (C51_compile sh gs G) as (_ & _ & F & E & C & _). fold c in F, E, C.
  destruct (C87_marks (cp_points c) (cp_facets c) (cp_holes c) (cp_control c) labels cp F) as (l & El & L & H & K & _). exists l. split; [exact El|]. rewrite L, E, H, K, C. split; [|auto].
  f_equal. clear - G. induction G as [|g gs G _ IH]; [reflexivity|]. cbn [map]. rewrite IH. f_equal. apply (C50_geometry_edges sh g G).
Qed.
(** Two squares side by side: eight lines. *)
Example C87_met : Forall (is_geometry toy) [square1; square2] /\ length (concat (map (fun g => concat (map ring_edges (rings (gm_poly g)))) [square1; square2])) = 8%nat.
Proof.
  split; [constructor; [apply new_is_geometry|constructor; [apply new_is_geometry|constructor]]|]. cbn [map]. unfold square1, square2. rewrite !box_poly by (left; discriminate). reflexivity.
Qed.

Print Assumptions C86_mesh_colors.
Print Assumptions C86_mesh_legend.
Print Assumptions C86_mesh_lines.
Print Assumptions C86_mask_length.
Print Assumptions C86_mask_triangles.
Print Assumptions C86_mask_colors.
Print Assumptions C86_mask_colors_refuted.
Print Assumptions C86_warping.
Print Assumptions C86_no_warping.
Print Assumptions C87_marks.
Print Assumptions C87_dangling.
Print Assumptions C87_geometry.
Print Assumptions C87_compound.
