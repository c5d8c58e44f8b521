(** CompoundGeometry.from_points (C52). *)
From Coq Require Import String Reals List Bool Arith ZArith Lia Lra.
From Verif Require Import Base M_Fea M_Init M_Geometry S_Geometry P_Geometry P_Geometry2 P_Geometry3 P_Geometry4 P_Geometry6 P_Geometry8 S_FromPoints P_FromPoints.
Import ListNotations.
Local Open Scope R_scope.

(** The classification of the loops found, in terms of the specification. *)
Lemma compound_unfold sh points l ls control holes materials mats (void : list nat -> bool) :
  Forall (good_loop points) (l :: ls) -> separate (head_of l) ls -> materials_of materials control mats ->
  (forall k, In k (l :: ls) -> void k = true <-> is_void sh points control holes k) ->
  compound_from_points sh points (concat (map ring_facets (l :: ls))) control holes materials =
  let outer := filter (fun k => negb (void k)) (l :: ls) in let inner := filter void (l :: ls) in
  if negb (match mats with [] => true | _ => false end) && match control with [] => true | _ => false end then Err ValueError
  else if negb (Nat.eqb (length mats) (length control)) then Err ValueError
  else if negb (Nat.eqb (length outer) (length control)) then Err ValueError
  else bind (match map (region points) inner with
            | [] => Ok (map (fun q => let '(e, (c, m)) := q in new_geometry sh e m (Some c) 12) (combine (map (region points) outer) (combine control mats)))
            | _ => map_result (fun q => bind (punch sh control (fst q) (0, 0) (map (region points) inner)) (fun r =>
                                        Ok (new_geometry sh (fst r) (snd q) (Some (snd r)) 12))) (combine (map (region points) outer) mats)
            end) (fun gs => Ok (compile_compound sh gs)).
Proof.
  intros G S M V. unfold compound_from_points. assert (E : match materials with Some l0 => l0 | None => map (fun _ => default_material) control end = mats) by (destruct M as [->|[-> ->]]; reflexivity).
  rewrite E. cbv zeta. destruct (negb _ && _); [reflexivity|]. destruct (negb _); [reflexivity|]. rewrite (chain_loops points l ls G S). cbn [bind].
  change (fun p : polygon => existsb (sh_contains sh p) holes && negb (existsb (sh_contains sh p) control)) with (void_test sh control holes).
  change (fun p : polygon => negb (existsb (sh_contains sh p) holes && negb (existsb (sh_contains sh p) control))) with (fun p => negb (void_test sh control holes p)).
  assert (T : forall k, In k (l :: ls) -> void_test sh control holes (region points k) = void k).
  { intros k Hk. apply eq_true_iff_eq. rewrite void_iff. symmetry. apply V, Hk. }
  rewrite (filter_map (region points) (void_test sh control holes) void (l :: ls) T).
  rewrite (filter_map (region points) (fun p => negb (void_test sh control holes p)) (fun k => negb (void k)) (l :: ls)) by (intros k Hk; f_equal; apply T, Hk).
  rewrite map_length. destruct (negb _); [reflexivity|]. destruct (map (region points) (filter void (l :: ls))); reflexivity.
Qed.
Lemma nth_combine_some {A B} (a : list A) : forall (b : list B) i x y, nth_error a i = Some x -> nth_error b i = Some y -> nth_error (combine a b) i = Some (x, y).
Proof. induction a as [|u a IH]; intros [|v b] [|i] x y H1 H2; try discriminate; cbn in *; [congruence|apply IH; assumption]. Qed.
Lemma filter_none {A} (f : A -> bool) l : (forall a, In a l -> f a = false) -> filter f l = [].
Proof. induction l as [|a l IH]; intros H; [reflexivity|]. cbn. rewrite (H a (or_introl eq_refl)). apply IH. intros b Hb. apply H. right. exact Hb. Qed.
Lemma filter_all {A} (f : A -> bool) l : (forall a, In a l -> f a = true) -> filter f l = l.
Proof. induction l as [|a l IH]; intros H; [reflexivity|]. cbn. rewrite (H a (or_introl eq_refl)). f_equal. apply IH. intros b Hb. apply H. right. exact Hb. Qed.
Lemma map_result_nth {A B} (f : A -> result B) l bs : map_result f l = Ok bs -> length bs = length l /\ forall i a, nth_error l i = Some a -> exists b, f a = Ok b /\ nth_error bs i = Some b.
Proof.
  revert bs. induction l as [|a l IH]; intros bs E; cbn in E; [injection E as <-; split; [reflexivity|intros [|i] x H; discriminate H]|].
  destruct (f a) as [b|] eqn:Ef; [|discriminate E]. cbn [bind] in E. destruct (map_result f l) as [bs'|]; [|discriminate E]. cbn [bind] in E. injection E as <-. destruct (IH bs' eq_refl) as [L H].
  split; [cbn; rewrite L; reflexivity|]. intros [|i] x Hx; cbn in Hx |- *; [injection Hx as <-; exists b; auto|apply H, Hx].
Qed.
Lemma map_result_total {A B} (f : A -> result B) l : (forall a, In a l -> exists b, f a = Ok b) -> exists bs, map_result f l = Ok bs.
Proof.
  induction l as [|a l IH]; intros H; [exists []; reflexivity|]. destruct (H a (or_introl eq_refl)) as [b E]. destruct IH as [bs Es]; [intros x Hx; apply H; right; exact Hx|].
  exists (b :: bs). cbn. rewrite E. cbn. rewrite Es. reflexivity.
Qed.

(** Without voids: region number i is the i-th loop, with the i-th control point and the i-th material. *)
Theorem C52_compound_regions : forall sh points l ls control holes materials mats,
  Forall (good_loop points) (l :: ls) -> separate (head_of l) ls -> materials_of materials control mats ->
  (forall k, In k (l :: ls) -> ~ is_void sh points control holes k) -> length control = length (l :: ls) -> length mats = length control ->
  exists c, compound_from_points sh points (concat (map ring_facets (l :: ls))) control holes materials = Ok c /\
    c = compile_compound sh (cp_geoms c) /\ length (cp_geoms c) = length (l :: ls) /\
    forall i k p m, nth_error (l :: ls) i = Some k -> nth_error control i = Some p -> nth_error mats i = Some m ->
      nth_error (cp_geoms c) i = Some (new_geometry sh (region points k) m (Some p) 12).
Proof.
  intros sh points l ls control holes materials mats G S M V Lc Lm. rewrite (compound_unfold sh points l ls control holes materials mats (fun _ => false) G S M).
  2:{ intros k Hk. split; [discriminate|intros H; destruct (V k Hk H)]. }
  cbv zeta. rewrite (filter_none (fun _ => false)) by reflexivity. rewrite (filter_all (fun k => negb false)) by reflexivity.
  assert (Nc : control <> []) by (intros ->; discriminate Lc). rewrite Lm, <- Lc, !Nat.eqb_refl. cbn [negb]. change (map (region points) []) with (@nil polygon).
  destruct control as [|c0 control]; [contradiction|]. rewrite andb_false_r. cbn [bind].
  set (gs := map _ (combine _ _)). exists (compile_compound sh gs).
  assert (Eg : cp_geoms (compile_compound sh gs) = gs). { unfold compile_compound. destruct (fold_left compile_step gs ([], [], [])) as [[a b] d]. reflexivity. }
  rewrite Eg. split; [reflexivity|]. split; [reflexivity|]. split.
  - unfold gs. rewrite map_length, !combine_length, map_length, Lm, Lc. lia.
  - intros i k p m Hk Hp Hm. unfold gs. rewrite nth_error_map. rewrite (nth_combine_some _ _ i (region points k) (p, m)).
    + reflexivity.
    + apply map_nth_error. exact Hk.
    + apply nth_combine_some; assumption.
Qed.

(** With voids: region number i is the i-th loop that is not a void without all voids, with the i-th material; its control point is the first one inside. *)
Theorem C52_compound_voids : forall sh points l ls control holes materials mats void,
  shrinks sh -> Forall (good_loop points) (l :: ls) -> separate (head_of l) ls -> materials_of materials control mats ->
  (forall k, In k (l :: ls) -> void k = true <-> is_void sh points control holes k) ->
  let outer := filter (fun k => negb (void k)) (l :: ls) in let inner := filter void (l :: ls) in
  inner <> [] -> control <> [] -> length control = length outer -> length mats = length control ->
  (forall k, In k outer -> exists q, punched sh (region points k) (map (region points) inner) q /\ exists p, In p control /\ sh_contains sh q p = true) ->
  exists c, compound_from_points sh points (concat (map ring_facets (l :: ls))) control holes materials = Ok c /\
    c = compile_compound sh (cp_geoms c) /\ length (cp_geoms c) = length outer /\
    forall i k m, nth_error outer i = Some k -> nth_error mats i = Some m -> exists q p, punched sh (region points k) (map (region points) inner) q /\
      first_inside sh control q p /\ nth_error (cp_geoms c) i = Some (new_geometry sh q m (Some p) 12).
Proof.
  intros sh points l ls control holes materials mats void Sh G S M V outer inner Ni Nc Lc Lm P. rewrite (compound_unfold sh points l ls control holes materials mats void G S M V).
  cbv zeta. fold outer inner. rewrite Lm, Lc, !Nat.eqb_refl. cbn [negb]. destruct control as [|c0 control]; [contradiction|]. rewrite andb_false_r.
  assert (Nr : map (region points) inner <> []) by (destruct inner; [contradiction|discriminate]).
  set (f := fun q : polygon * mat_obj => _). destruct (map_result_total f (combine (map (region points) outer) mats)) as [gs Eg].
  { intros [p m] Hq. apply in_combine_l in Hq. apply in_map_iff in Hq. destruct Hq as (k & <- & Hk). destruct (P k Hk) as (q & Pq & Cq).
    destruct (punch_ok sh (c0 :: control) _ Sh Nr (region points k) (0, 0) q Pq Cq) as (c & E & _). exists (new_geometry sh q m (Some c) 12). unfold f. cbn [fst snd]. rewrite E. reflexivity. }
  destruct (map_result_nth f _ _ Eg) as [Lg Hg].
  assert (E2 : forall X : result (list geom), match map (region points) inner with [] => X | _ :: _ => map_result f (combine (map (region points) outer) mats) end = Ok gs) by (intros X; destruct (map (region points) inner); [contradiction|exact Eg]).
  rewrite E2. cbn [bind]. exists (compile_compound sh gs).
  assert (Ec : cp_geoms (compile_compound sh gs) = gs). { unfold compile_compound. destruct (fold_left compile_step gs ([], [], [])) as [[a b] d]. reflexivity. }
  rewrite Ec. split; [reflexivity|]. split; [reflexivity|]. split.
  - rewrite Lg, combine_length, map_length, Lm, Lc. lia.
  - intros i k m Hk Hm. destruct (P k) as (q & Pq & Cq); [apply nth_error_In in Hk; exact Hk|].
    destruct (punch_ok sh (c0 :: control) _ Sh Nr (region points k) (0, 0) q Pq Cq) as (c & E & Fi). exists q, c. split; [exact Pq|]. split; [exact Fi|].
    destruct (Hg i (region points k, m)) as (g & Fg & Ng). { apply nth_combine_some; [apply map_nth_error; exact Hk|exact Hm]. }
    unfold f in Fg. cbn [fst snd] in Fg. rewrite E in Fg. cbn [bind fst snd] in Fg. injection Fg as <-. exact Ng.
Qed.

(** The documented errors: materials without control points, another number of materials than of control points, another number of regions. *)
Theorem C52_compound_errors : forall sh points l ls control holes materials mats void,
  Forall (good_loop points) (l :: ls) -> separate (head_of l) ls -> materials_of materials control mats ->
  (forall k, In k (l :: ls) -> void k = true <-> is_void sh points control holes k) ->
  (mats <> [] /\ control = []) \/ length mats <> length control \/ length (filter (fun k => negb (void k)) (l :: ls)) <> length control ->
  compound_from_points sh points (concat (map ring_facets (l :: ls))) control holes materials = Err ValueError.
Proof.
  intros sh points l ls control holes materials mats void G S M V H. rewrite (compound_unfold sh points l ls control holes materials mats void G S M V). cbv zeta.
  destruct (negb _ && _) eqn:E1; [reflexivity|]. destruct (Nat.eqb (length mats) (length control)) eqn:E2; [|reflexivity]. apply Nat.eqb_eq in E2. cbn [negb].
  destruct (Nat.eqb _ (length control)) eqn:E3; [|reflexivity]. apply Nat.eqb_eq in E3. exfalso. destruct H as [[H1 ->]|[H|H]]; [|exact (H E2)|exact (H E3)].
  destruct mats; [contradiction|discriminate E1].
Qed.

(** A facet that refers to a point that is not in the list: there is no geometry; with facets that run on from one to the next it is IndexError. *)
Theorem C52_compound_dangling : forall sh points facets control holes materials, Exists (fun f => (length points <= fst f \/ length points <= snd f)%nat) facets ->
  exists e, compound_from_points sh points facets control holes materials = Err e.
Proof.
  intros sh points facets control holes materials H. unfold compound_from_points. cbv zeta. destruct (_ && _); [exists ValueError; reflexivity|]. destruct (negb _); [exists ValueError; reflexivity|].
  destruct (dangling_chain points facets [] [] None (or_intror H)) as (e & E). rewrite <- chain_as in E. rewrite E. exists e. reflexivity.
Qed.
Theorem C52_compound_dangling_index : forall sh points facets control holes materials mats, (forall i f g, nth_error facets i = Some f -> nth_error facets (S i) = Some g -> fst g = snd f) ->
  materials_of materials control mats -> length mats = length control -> Exists (fun f => (length points <= fst f \/ length points <= snd f)%nat) facets ->
  compound_from_points sh points facets control holes materials = Err IndexError.
Proof.
  intros sh points facets control holes materials mats C M L H. unfold compound_from_points. cbv zeta. replace (match materials with Some l => l | None => _ end) with mats by (destruct M as [->|(-> & ->)]; reflexivity).
  replace (negb _ && _) with false by (destruct mats, control; first [reflexivity|discriminate L]). rewrite L, Nat.eqb_refl. cbn [negb].
  destruct facets as [|f fs]; [inversion H|]. rewrite dangling_first; [reflexivity| |exact H]. clear H. revert f C. induction fs as [|g fs IH]; intros f C; [exact I|]. split; [exact (C 0%nat f g eq_refl eq_refl)|].
  apply (IH g). intros i a b Ha Hb. exact (C (S i) a b Ha Hb).
Qed.
Example C52_compound_dangling_met : exists (points : list pt) facets control, (forall i f g, nth_error facets i = Some f -> nth_error facets (S i) = Some g -> fst g = snd f) /\
  Exists (fun f => (length points <= fst f \/ length points <= snd f)%nat) facets /\ materials_of None control [default_material] /\ length [default_material] = length control.
Proof.
  exists [(0, 0); (4, 0); (4, 4)], [(0, 1); (1, 2); (2, 3)]%nat, [(3, 1)]. split; [|split; [apply Exists_cons_tl, Exists_cons_tl, Exists_cons_hd; right; cbn; lia|split; [right; split; reflexivity|reflexivity]]].
  intros [|[|[|[|i]]]] f g Hf Hg; cbn in Hf, Hg; try discriminate; injection Hf as <-; injection Hg as <-; reflexivity.
Qed.

(** Geometry.from_points: a facet that starts at no point is IndexError. *)
Theorem C52_dangling : forall sh points facets c holes m, Exists (fun f => (length points <= fst f)%nat) facets -> from_points sh points facets [c] holes m = Err IndexError.
Proof. intros sh points facets c holes m H. unfold from_points. rewrite (dangling_step points holes facets _ H). reflexivity. Qed.
(** But the second ends of the facets are not looked at if there are no hole points: whatever they are, the result is the same, so that even ends that refer to no
    point are accepted. *)
Theorem C52_ends_ignored : forall sh points facets facets' c m, map fst facets = map fst facets' -> from_points sh points facets [c] [] m = from_points sh points facets' [c] [] m.
Proof.
  intros sh points facets facets' c m E. unfold from_points. cbn [map]. pose proof (ends_ignored points facets facets' (mkLoop [] [] None 0 None) (mkLoop [] [] None 0 None) E ltac:(repeat split)) as K.
  destruct (fold_result _ facets _) as [a|e], (fold_result _ facets' _) as [a'|e']; cbn [both] in K; try contradiction; cbn [bind]; [|rewrite K; reflexivity].
  destruct K as (K1 & K2 & _). rewrite K1, K2. reflexivity.
Qed.
Theorem C52_dangling_end_refuted : exists points facets, Exists (fun f => (length points <= snd f)%nat) facets /\
  forall sh c m, from_points sh points facets [c] [] m = match sh_difference sh (mkPoly points []) [] with Some p => Ok (new_geometry sh p m (Some c) 12) | None => Err RuntimeError end.
Proof.
  exists [ipt 0 0; ipt 9 0; ipt 0 9], [(0, 1); (1, 2); (2, 7)]%nat. split; [apply Exists_cons_tl, Exists_cons_tl, Exists_cons_hd; cbn; lia|]. intros sh c m. unfold from_points.
  cbn [fold_result from_points_step nth_error fst snd lp_prev bind append_active lp_active lp_ext lp_ints lp_count negb andb Nat.eqb map app map_result].
  rewrite (open_loop_ring [ipt 0 0; ipt 9 0; ipt 0 9]); [reflexivity|]. split; [cbn; lia|]. intros a. cbn. intros E. injection E as E. lra.
Qed.

(** Control points that are outside the region once the voids are taken away are refused. *)
Theorem C52_compound_outside : forall sh points l ls control holes materials mats void k,
  Forall (good_loop points) (l :: ls) -> separate (head_of l) ls -> materials_of materials control mats ->
  (forall k, In k (l :: ls) -> void k = true <-> is_void sh points control holes k) ->
  let outer := filter (fun k => negb (void k)) (l :: ls) in let inner := filter void (l :: ls) in
  inner <> [] -> length control = length outer -> length mats = length control -> hd_error outer = Some k ->
  (forall q, sh_difference sh (region points k) [region points (hd [] inner)] = Some q -> forall p, In p control -> sh_contains sh q p = false) ->
  (exists q, sh_difference sh (region points k) [region points (hd [] inner)] = Some q) ->
  compound_from_points sh points (concat (map ring_facets (l :: ls))) control holes materials = Err ValueError.
Proof.
  intros sh points l ls control holes materials mats void k G S M V outer inner Ni Lc Lm Hk Out [q Q]. rewrite (compound_unfold sh points l ls control holes materials mats void G S M V).
  cbv zeta. fold outer inner. rewrite Lm, Lc, !Nat.eqb_refl. cbn [negb]. destruct (negb _ && _); [reflexivity|].
  destruct outer as [|k0 outer']; [discriminate Hk|]. injection Hk as ->. destruct mats as [|m mats]; [exfalso; rewrite Lc in Lm; discriminate Lm|].
  destruct inner as [|i inner']; [contradiction|]. cbn [map combine map_result fst snd punch hd] in *. rewrite Q.
  assert (F : find (sh_contains sh q) control = None). { destruct (find (sh_contains sh q) control) as [p|] eqn:E; [|reflexivity]. apply find_some in E. destruct E as [I C]. rewrite (Out q Q p I) in C. discriminate C. }
  rewrite F. reflexivity.
Qed.

(** Two regions whose loops start at the same point: the break between them is not seen, one polygon is made of both and the call is refused. *)
Theorem C52_compound_shared_start_refuted : exists points k1 k2 control, good_loop points k1 /\ good_loop points k2 /\ length control = 2%nat /\
  forall sh, compound_from_points sh points (concat (map ring_facets [k1; k2])) control [] None = Err ValueError.
Proof.
  exists [ipt 0 0; ipt 4 0; ipt 4 4; ipt 0 4], [0; 1; 2]%nat, [0; 2; 3]%nat, [ipt 3 1; ipt 1 3].
  split; [|split; [|split; [reflexivity|]]].
  - split; [repeat constructor|]. split; [cbn; lia|]. intros a. cbn. intros E. injection E as E _. lra.
  - split; [repeat constructor|]. split; [cbn; lia|]. intros a. cbn. intros E. injection E as E. lra.
  - intros sh. unfold compound_from_points. cbn [map length negb andb Nat.eqb]. unfold chain_polygons.
    cbn [concat map ring_facets app combine tl firstn fold_result chain_step nth_error fst snd Nat.eqb bind].
    unfold make_polygon, make_ring, open_ring. cbn [last]. rewrite (proj2 (pt_eqb_spec _ _) eq_refl). cbn [removelast length Nat.ltb Nat.leb bind app existsb filter andb negb Nat.eqb]. reflexivity.
Qed.

(** An oracle for boxes with box-shaped voids, and a plate with a void. *)
Definition in_open (r : list pt) (x : pt) : Prop := let '(x1, y1, x2, y2) := list_bounds r in x1 < fst x < x2 /\ y1 < snd x < y2.
Definition in_closed (r : list pt) (x : pt) : Prop := let '(x1, y1, x2, y2) := list_bounds r in x1 <= fst x <= x2 /\ y1 <= snd x <= y2.
Lemma in_open_dec r x : {in_open r x} + {~ in_open r x}.
Proof. unfold in_open. destruct (list_bounds r) as [[[x1 y1] x2] y2]. destruct (Rlt_dec x1 (fst x)), (Rlt_dec (fst x) x2), (Rlt_dec y1 (snd x)), (Rlt_dec (snd x) y2); (left; tauto) || (right; tauto). Defined.
Lemma in_closed_dec r x : {in_closed r x} + {~ in_closed r x}.
Proof. unfold in_closed. destruct (list_bounds r) as [[[x1 y1] x2] y2]. destruct (Rle_dec x1 (fst x)), (Rle_dec (fst x) x2), (Rle_dec y1 (snd x)), (Rle_dec (snd x) y2); (left; tauto) || (right; tauto). Defined.
Definition boxes : shapely := mkShapely (fun p => hd (0, 0) (ext p))
  (fun p x => (if in_open_dec (ext p) x then true else false) && forallb (fun r => if in_closed_dec r x then false else true) (ints p))
  (fun p l => Some (mkPoly (ext p) (ints p ++ map ext l))) (fun _ => []) (fun _ _ => true).
Example C52_boxes : shrinks boxes.
Proof.
  intros p i q x D C. cbn in D. injection D as <-. cbn [sh_contains boxes ext ints] in *. rewrite forallb_app, !andb_true_iff in C. rewrite andb_true_iff. tauto.
Qed.
Definition plate_points : list pt := box 0 0 4 4 ++ box 1 1 2 2.
Lemma bounds_box x1 y1 x2 y2 : (x1 <= x2)%Z -> (y1 <= y2)%Z -> list_bounds (box x1 y1 x2 y2) = (IZR x1, IZR y1, IZR x2, IZR y2).
Proof. intros H K. apply IZR_le in H, K. unfold list_bounds, box, ipt. cbn [map fst snd fold_left]. unfold Rmin, Rmax. repeat (destruct (Rle_dec _ _); try lra); repeat apply (f_equal2 pair); lra. Qed.
Example C52_compound_voids_met : Forall (good_loop plate_points) [[0; 1; 2; 3]; [4; 5; 6; 7]]%nat /\ separate 0 [[4; 5; 6; 7]]%nat /\
  is_void boxes plate_points [(3, 3)] [(1.5, 1.5)] [4; 5; 6; 7]%nat /\ ~ is_void boxes plate_points [(3, 3)] [(1.5, 1.5)] [0; 1; 2; 3]%nat /\
  exists q, punched boxes (region plate_points [0; 1; 2; 3]%nat) [region plate_points [4; 5; 6; 7]%nat] q /\ sh_contains boxes q (3, 3) = true.
Proof.
  assert (E1 : map (at_ plate_points) [0; 1; 2; 3]%nat = box 0 0 4 4) by reflexivity. assert (E2 : map (at_ plate_points) [4; 5; 6; 7]%nat = box 1 1 2 2) by reflexivity.
  split; [|split; [cbn; split; [discriminate|exact I]|split; [|split]]].
  - repeat constructor; cbn; intros; lia || (intros E; injection E as E; lra).
  - unfold is_void, region. rewrite E2. split.
    + exists (1.5, 1.5). split; [left; reflexivity|]. cbn [sh_contains boxes ext ints forallb]. destruct (in_open_dec (box 1 1 2 2) (1.5, 1.5)) as [H|H]; [reflexivity|exfalso; apply H]. unfold in_open. rewrite bounds_box by lia. cbn [fst snd]. lra.
    + intros c [<-|[]]. cbn [sh_contains boxes ext ints forallb]. destruct (in_open_dec (box 1 1 2 2) (3, 3)) as [H|H]; [exfalso|reflexivity]. unfold in_open in H. rewrite bounds_box in H by lia. cbn [fst snd] in H. lra.
  - intros [_ H]. specialize (H (3, 3) (or_introl eq_refl)). unfold region in H. rewrite E1 in H. cbn [sh_contains boxes ext ints forallb] in H. destruct (in_open_dec (box 0 0 4 4) (3, 3)) as [K|K]; [discriminate H|apply K].
    unfold in_open. rewrite bounds_box by lia. cbn [fst snd]. lra.
  - unfold region. rewrite E1, E2. exists (mkPoly (box 0 0 4 4) [box 1 1 2 2]). split; [econstructor; [reflexivity|constructor]|]. cbn [sh_contains boxes ext ints forallb].
    destruct (in_open_dec (box 0 0 4 4) (3, 3)) as [K|K]; [|exfalso; apply K; unfold in_open; rewrite bounds_box by lia; cbn [fst snd]; lra].
    destruct (in_closed_dec (box 1 1 2 2) (3, 3)) as [H|H]; [exfalso; unfold in_closed in H; rewrite bounds_box in H by lia; cbn [fst snd] in H; lra|reflexivity].
Qed.

Example C52_compound_regions_met : exists c, compound_from_points boxes (box 0 0 4 4 ++ box 4 0 8 4) (concat (map ring_facets [[0; 1; 2; 3]; [4; 5; 6; 7]]%nat)) [(2, 2); (6, 2)] [] None = Ok c /\
  cp_geoms c = [new_geometry boxes (mkPoly (box 0 0 4 4) []) default_material (Some (2, 2)) 12; new_geometry boxes (mkPoly (box 4 0 8 4) []) default_material (Some (6, 2)) 12].
Proof.
  destruct (C52_compound_regions boxes (box 0 0 4 4 ++ box 4 0 8 4) [0; 1; 2; 3]%nat [[4; 5; 6; 7]%nat] [(2, 2); (6, 2)] [] None [default_material; default_material]) as (c & E & _ & L & H).
  - repeat constructor; cbn; intros; lia || (intros E; injection E as E; lra).
  - cbn. split; [discriminate|exact I].
  - right. split; reflexivity.
  - intros k _ [(h & [] & _) _].
  - reflexivity.
  - reflexivity.
  - exists c. split; [exact E|]. pose proof (H 0%nat _ _ _ eq_refl eq_refl eq_refl) as H0. pose proof (H 1%nat _ _ _ eq_refl eq_refl eq_refl) as H1. cbn in L.
    destruct (cp_geoms c) as [|a [|b [|d r]]]; try discriminate L. cbn [nth_error] in H0, H1. injection H0 as ->. injection H1 as ->. reflexivity.
Qed.

Print Assumptions C52_compound_regions.
Print Assumptions C52_compound_voids.
Print Assumptions C52_compound_errors.
Print Assumptions C52_compound_dangling.
Print Assumptions C52_compound_dangling_index.
Print Assumptions C52_dangling.
Print Assumptions C52_ends_ignored.
Print Assumptions C52_dangling_end_refuted.
Print Assumptions C52_compound_outside.
Print Assumptions C52_compound_shared_start_refuted.
