(** The elastic stress field as an admissible field of the plastic theory. *)
From Coquelicot Require Import Coquelicot.
From Coq Require Import Reals List Lra Lia Permutation.
From Verif Require Import Base S_Integral P_Integral M_Fea S_Fem P_Fea P_Geom M_Post M_Section S_Section S_Post P_Section P_Totals P_Post M_Bisect M_Props M_Plastic S_Plastic P_Ridge P_Plastic P_Plastic2 M_Post.
Import ListNotations.
Local Open Scope R_scope.

Lemma P4c_ok (k : coef) : simplex_ok (P4c k).
Proof.
  split.
  - intros s _. eexists. apply P4_inner_is.
  - eapply ex_RInt_ext; [|eexists; apply inner_val_is]. intros s _. symmetry. apply is_RInt_unique, P4_inner_is.
Qed.

Lemma poly_tri_ok f a b c : poly_deg 4 f -> tri_ok a b c f.
Proof.
  intros H. destruct (poly_affine 4 f H (le_n _) (fst a) (fst b - fst a) (fst c - fst a) (snd a) (snd b - snd a) (snd c - snd a)) as [k [_ E]].
  destruct (P4c_ok k) as [A B]. split.
  - intros s Hs. eapply ex_RInt_ext; [|apply (A s Hs)]. intros t _. symmetry. apply E.
  - eapply ex_RInt_ext; [|apply B]. intros s _. apply RInt_ext. intros t _. symmetry. apply E.
Qed.

Lemma quad_tri_ok k0 k1 k2 k3 k4 k5 a b c : tri_ok a b c (quad k0 k1 k2 k3 k4 k5).
Proof. apply poly_tri_ok, (poly_weaken 2); [apply poly_quad|lia]. Qed.

Definition shift_tri (sx sy : R) (p : point) : point := (fst p + sx, snd p + sy).

Lemma tri_int_shift sx sy a b c f :
  tri_int (shift_tri sx sy a) (shift_tri sx sy b) (shift_tri sx sy c) f = tri_int a b c (fun x y => f (x + sx) (y + sy)).
Proof.
  unfold tri_int, shift_tri. cbn [fst snd]. f_equal.
  - f_equal. unfold orient. cbn [fst snd]. ring.
  - apply simplex_int_ext. intros. f_equal; ring.
Qed.

Lemma translate_corners sx sy el :
  corner_a (translate_el sx sy el) = shift_tri sx sy (corner_a el) /\
  corner_b (translate_el sx sy el) = shift_tri sx sy (corner_b el) /\
  corner_c (translate_el sx sy el) = shift_tri sx sy (corner_c el).
Proof. repeat split; reflexivity. Qed.

Lemma el_scal_quad el E k0 k1 k2 k3 k4 k5 :
  el_int el (fun x y => E * quad k0 k1 k2 k3 k4 k5 x y) = E * el_int el (quad k0 k1 k2 k3 k4 k5).
Proof.
  unfold el_int. rewrite (tri_int_ext _ _ _ (fun x y => E * quad k0 k1 k2 k3 k4 k5 x y) (fun x y => E * quad k0 k1 k2 k3 k4 k5 x y + 0 * quad k0 k1 k2 k3 k4 k5 x y)) by (intros; ring).
  rewrite tri_int_lin by apply quad_tri_ok. ring.
Qed.

Lemma edges_map_mtri els : region_edges (map mtri_of els) = mesh_edges els.
Proof. unfold region_edges, mesh_edges. rewrite map_map. reflexivity. Qed.

Lemma translate_in_triangle sx sy a b c p :
  in_triangle (shift_tri sx sy a) (shift_tri sx sy b) (shift_tri sx sy c) p -> in_triangle a b c (fst p - sx, snd p - sy).
Proof.
  unfold in_triangle, shift_tri. cbn [fst snd]. intros (e & x & z & H1 & H2 & H3 & H4 & H5 & H6).
  exists e, x, z. repeat match goal with |- _ /\ _ => split end; try assumption.
  - rewrite H5. replace e with (1 - x - z) by lra. ring.
  - rewrite H6. replace e with (1 - x - z) by lra. ring.
Qed.

Section Field.
Context (els : list tri6) (sx sy al be : R) (n : R * R) (sec : list mtri).
Hypothesis Hv : valid_mesh els.
Hypothesis He : t_ea (section_totals els) <> 0.
Let c := centroidal_of (section_totals els).
Hypothesis Hb : same_boundary (mesh_edges (map (translate_el sx sy) els)) (region_edges sec).
Hypothesis Hy : forall el p, In el els -> in_triangle (corner_a el) (corner_b el) (corner_c el) p ->
  Rabs (m_E (el_mat el) * (al * (fst p - p_cx c) + be * (snd p - p_cy c))) <= m_fy (el_mat el).

Definition lin_field (el : tri6) (x y : R) : R := m_E (el_mat el) * (al * (x - (p_cx c + sx)) + be * (y - (p_cy c + sy))).
Definition elastic_field : stress_field := map (fun el => (mtri_of (translate_el sx sy el), lin_field el)) els.

Lemma lin_quad el x y : lin_field el x y = quad (m_E (el_mat el) * (- al * (p_cx c + sx) - be * (p_cy c + sy))) (m_E (el_mat el) * al) (m_E (el_mat el) * be) 0 0 0 x y.
Proof. unfold lin_field, quad. ring. Qed.

Lemma field_int el f k0 k1 k2 k3 k4 k5 :
  (forall x y, f (x + sx) (y + sy) = m_E (el_mat el) * quad k0 k1 k2 k3 k4 k5 (x - p_cx c) (y - p_cy c)) ->
  mt_int (mtri_of (translate_el sx sy el)) f = m_E (el_mat el) * el_int el (fun x y => quad k0 k1 k2 k3 k4 k5 (x - p_cx c) (y - p_cy c)).
Proof.
  intros H. unfold mt_int, mtri_of. cbn [mt_a mt_b mt_c]. destruct (translate_corners sx sy el) as (-> & -> & ->).
  rewrite tri_int_shift. fold (el_int el (fun x y => f (x + sx) (y + sy))).
  set (cx := p_cx c) in *. set (cy := p_cy c) in *.
  assert (Q : forall x y, quad k0 k1 k2 k3 k4 k5 (x - cx) (y - cy) = quad (k0 - k1 * cx - k2 * cy + k3 * cx ^ 2 + k4 * cx * cy + k5 * cy ^ 2)
     (k1 - 2 * k3 * cx - k4 * cy) (k2 - 2 * k5 * cy - k4 * cx) k3 k4 k5 x y) by (intros; unfold quad; ring).
  unfold el_int. rewrite (tri_int_ext _ _ _ _ _ H).
  rewrite (tri_int_ext _ _ _ (fun x y => quad k0 k1 k2 k3 k4 k5 (x - cx) (y - cy)) _ Q).
  rewrite (tri_int_ext _ _ _ (fun x y => m_E (el_mat el) * quad k0 k1 k2 k3 k4 k5 (x - cx) (y - cy)) (fun x y => m_E (el_mat el) * quad (k0 - k1 * cx - k2 * cy + k3 * cx ^ 2 + k4 * cx * cy + k5 * cy ^ 2)
     (k1 - 2 * k3 * cx - k4 * cy) (k2 - 2 * k5 * cy - k4 * cx) k3 k4 k5 x y)) by (intros; rewrite Q; reflexivity).
  apply el_scal_quad.
Qed.

Lemma elastic_admissible : admissible sec n elastic_field.
Proof.
  split; [|split].
  - unfold elastic_field. apply Forall_map, Forall_forall. intros el Hel. 
    assert (Hval := Hv el Hel). destruct (translate_corners sx sy el) as (Ea & Eb & Ec).
    split; [|split; [|split]].
    + unfold ccw, mtri_of. cbn [mt_a mt_b mt_c]. rewrite Ea, Eb, Ec. destruct Hval as [_ Ho].
      unfold shift_tri, orient in *. cbn [fst snd]. lra.
    + apply (tri_ok_ext _ _ _ _ _ (fun x y => eq_sym (lin_quad el x y))), quad_tri_ok.
    + set (k0 := m_E (el_mat el) * (- al * (p_cx c + sx) - be * (p_cy c + sy))). set (k1 := m_E (el_mat el) * al). set (k2 := m_E (el_mat el) * be).
      apply (tri_ok_ext _ _ _ (quad 0 (k0 * fst n) (k0 * snd n) (k1 * fst n) (k1 * snd n + k2 * fst n) (k2 * snd n))).
      * intros x y. rewrite lin_quad. fold k0 k1 k2. unfold quad, height. ring.
      * apply quad_tri_ok.
    + unfold mtri_of. cbn [mt_a mt_b mt_c mt_mat]. rewrite Ea, Eb, Ec. intros p Hp. apply translate_in_triangle in Hp.
      specialize (Hy el _ Hel Hp). cbn [fst snd] in Hy. unfold lin_field.
      replace (al * (fst p - (p_cx c + sx)) + be * (snd p - (p_cy c + sy))) with (al * (fst p - sx - p_cx c) + be * (snd p - sy - p_cy c)) by ring.
      exact Hy.
  - unfold elastic_field. rewrite map_map. cbn [fst].
    rewrite <- (map_map (translate_el sx sy) mtri_of), edges_map_mtri. exact Hb.
  - unfold elastic_field. rewrite sumf_map. cbn [fst snd].
    transitivity (mesh_int m_E (fun x y => quad 0 al be 0 0 0 (x - p_cx c) (y - p_cy c)) els).
    + unfold mesh_int. apply sumf_ext. intros el _. apply field_int. intros. unfold lin_field, quad. ring.
    + eapply eq_trans; [exact (mesh_int_centred els 0 al be 0 0 0 Hv He)|]. ring.
Qed.

Lemma elastic_moment : field_moment n elastic_field =
  fst n * (al * p_iyy_c c + be * p_ixy_c c) + snd n * (al * p_ixy_c c + be * p_ixx_c c).
Proof.
  unfold field_moment, elastic_field. rewrite sumf_map. cbn [fst snd].
  set (h0 := height n (p_cx c + sx) (p_cy c + sy)).
  transitivity (mesh_int m_E (fun x y => quad 0 (al * h0) (be * h0) (al * fst n) (al * snd n + be * fst n) (be * snd n) (x - p_cx c) (y - p_cy c)) els).
  - unfold mesh_int. apply sumf_ext. intros el _. apply field_int. intros. unfold lin_field, quad, h0, height. ring.
  - eapply eq_trans; [exact (mesh_int_centred els _ _ _ _ _ _ Hv He)|]. fold c. ring.
Qed.
End Field.
