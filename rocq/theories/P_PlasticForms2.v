(** Proofs: the outlines of library shapes are made of plates, and the plates cut at the plastic axes. *)
From Coquelicot Require Import Coquelicot.
From Coq Require Import Reals List Permutation Lra Lia.
From Verif Require Import Base S_Integral M_Fea S_Fem S_Section M_Bisect M_Plastic S_Plastic M_Init M_Geometry S_Geometry P_Geom P_Section P_Plastic P_Geometry6 P_Geometry8 M_Library S_Library P_Library8 P_Library2 P_Outline S_Outline P_Outline P_Outline2 P_Outline3 S_PlasticForms P_PlasticForms.
Import ListNotations.
Local Open Scope R_scope.

(** ** Reordering, splitting and cancelling named edges *)
Ltac rest_of e l := match l with e :: ?t => constr:(t) | ?b :: ?t => let r := rest_of e t in constr:(b :: r) end.
Ltac picker a r pre := match r with a :: ?post => apply (Permutation_cons_app pre post a) | ?b :: ?post => let pre' := eval cbn [app] in (pre ++ [b]) in picker a post pre' end.
Ltac perm1 := match goal with |- Permutation (?a :: ?l) ?r => let T := type of a in picker a r (@nil T); cbn [app] end.
Ltac perms := repeat perm1; apply Permutation_refl.
Ltac front e := match goal with |- same_boundary ?l ?r => let t := rest_of e l in apply (sb_trans l (e :: t) r); [apply sb_perm, Permutation_sym; perms|] end.
(** split the edge pq of material m at r, which divides it in the ratio t *)
Ltac splits m p q r t := front (m, p, q); eapply sb_trans; [apply (sb_split_at m p q r); exists t; unfold p, q, r; cbn [fst snd]; f_equal; field; lra|].
Ltac cancels m p q := front (m, q, p); front (m, p, q); eapply sb_trans; [apply sb_cancel|].

Lemma one_edges m l : 0 <= ring_area l -> poly_edges m (mkPoly l []) = S_Section.ring_edges m l.
Proof. intros H. unfold poly_edges, left_ring. cbn [ext ints map concat]. destruct (Rlt_dec _ _); [lra|apply app_nil_r]. Qed.

(** an edge split at two points of its line *)
Lemma sb_split2 m p q r s l : (exists t, r = (fst p + t * (fst q - fst p), snd p + t * (snd q - snd p))) -> (exists t, s = (fst p + t * (fst q - fst p), snd p + t * (snd q - snd p))) ->
  same_boundary ((m, p, q) :: l) ((m, p, r) :: (m, r, s) :: (m, s, q) :: l).
Proof.
  intros R1 R2. eapply sb_trans; [apply (sb_split_at m p q s l R2)|]. apply sb_sym.
  destruct R1 as (t & Er), R2 as (u & Es).
  destruct (Req_dec u 0) as [Z|Z].
  - (* s = p *) assert (s = p) as -> by (rewrite Es, Z, (surjective_pairing p); cbn [fst snd]; f_equal; ring).
    eapply sb_trans; [apply (sb_cancel m p r)|]. eapply sb_trans; [|apply sb_sym, (sb_split_at m p p p ((m, p, q) :: l)); exists 0; rewrite (surjective_pairing p) at 1; cbn [fst snd]; f_equal; ring].
    apply sb_sym, sb_cancel.
  - eapply sb_trans; [|apply sb_sym, (sb_split_at m p s r ((m, s, q) :: l))]; [apply sb_refl|].
    exists (t / u). rewrite Er, Es. cbn [fst snd]. f_equal; field; exact Z.
Qed.
Ltac splits2 m p q r s t u := front (m, p, q); eapply sb_trans; [apply (sb_split2 m p q r s); [exists t|exists u]; unfold p, q, r, s; cbn [fst snd]; f_equal; field; lra|].

Lemma i_plates m (d b tf xl xr : R) : 0 < b ->
  same_boundary (parts_edges [(m, rect 0 0 b tf); (m, rect xl tf xr (d - tf)); (m, rect 0 (d - tf) b d)])
    (S_Section.ring_edges m [(0, 0); (b, 0); (b, tf); (xr, tf); (xr, d - tf); (b, d - tf); (b, d); (0, d); (0, d - tf); (xl, d - tf); (xl, tf); (0, tf)]).
Proof.
  intros H. set (p1 := (0, 0)). set (p2 := (b, 0)). set (p3 := (b, tf)). set (p4 := (xr, tf)). set (p5 := (xr, d - tf)). set (p6 := (b, d - tf)). set (p7 := (b, d)). set (p8 := (0, d)). set (p9 := (0, d - tf)). set (p10 := (xl, d - tf)). set (p11 := (xl, tf)). set (p12 := (0, tf)).
  change (same_boundary [(m, p1, p2); (m, p2, p3); (m, p3, p12); (m, p12, p1); (m, p11, p4); (m, p4, p5); (m, p5, p10); (m, p10, p11); (m, p9, p6); (m, p6, p7); (m, p7, p8); (m, p8, p9)]
    [(m, p1, p2); (m, p2, p3); (m, p3, p4); (m, p4, p5); (m, p5, p6); (m, p6, p7); (m, p7, p8); (m, p8, p9); (m, p9, p10); (m, p10, p11); (m, p11, p12); (m, p12, p1)]).
  splits2 m p3 p12 p4 p11 ((b - xr) / b) ((b - xl) / b). splits2 m p9 p6 p10 p5 (xl / b) (xr / b).
  cancels m p4 p11. cancels m p10 p5. apply sb_perm. perms.
Qed.
Lemma channel_plates m (d b tf tw : R) : 0 < b -> 0 < d ->
  same_boundary (parts_edges [(m, rect 0 0 b tf); (m, rect 0 tf tw (d - tf)); (m, rect 0 (d - tf) b d)])
    (S_Section.ring_edges m [(0, 0); (b, 0); (b, tf); (tw, tf); (tw, d - tf); (b, d - tf); (b, d); (0, d)]).
Proof.
  intros H H'. set (p1 := (0, 0)). set (p2 := (b, 0)). set (p3 := (b, tf)). set (p4 := (tw, tf)). set (p5 := (tw, d - tf)). set (p6 := (b, d - tf)). set (p7 := (b, d)). set (p8 := (0, d)). set (p9 := (0, d - tf)). set (p12 := (0, tf)).
  change (same_boundary [(m, p1, p2); (m, p2, p3); (m, p3, p12); (m, p12, p1); (m, p12, p4); (m, p4, p5); (m, p5, p9); (m, p9, p12); (m, p9, p6); (m, p6, p7); (m, p7, p8); (m, p8, p9)]
    [(m, p1, p2); (m, p2, p3); (m, p3, p4); (m, p4, p5); (m, p5, p6); (m, p6, p7); (m, p7, p8); (m, p8, p1)]).
  splits m p3 p12 p4 ((b - tw) / b). splits m p9 p6 p5 (tw / b). cancels m p4 p12. cancels m p9 p5.
  apply sb_sym. splits2 m p8 p1 p9 p12 (tf / d) ((d - tf) / d). apply sb_perm. perms.
Qed.
Lemma tee_plates m (d b tf xl xr : R) : 0 < b ->
  same_boundary (parts_edges [(m, rect xl 0 xr (d - tf)); (m, rect 0 (d - tf) b d)])
    (S_Section.ring_edges m [(xl, 0); (xr, 0); (xr, d - tf); (b, d - tf); (b, d); (0, d); (0, d - tf); (xl, d - tf)]).
Proof.
  intros H. set (p1 := (xl, 0)). set (p2 := (xr, 0)). set (p3 := (xr, d - tf)). set (p4 := (b, d - tf)). set (p5 := (b, d)). set (p6 := (0, d)). set (p7 := (0, d - tf)). set (p8 := (xl, d - tf)).
  change (same_boundary [(m, p1, p2); (m, p2, p3); (m, p3, p8); (m, p8, p1); (m, p7, p4); (m, p4, p5); (m, p5, p6); (m, p6, p7)]
    [(m, p1, p2); (m, p2, p3); (m, p3, p4); (m, p4, p5); (m, p5, p6); (m, p6, p7); (m, p7, p8); (m, p8, p1)]).
  splits2 m p7 p4 p8 p3 (xl / b) (xr / b). cancels m p8 p3. apply sb_perm. perms.
Qed.
Lemma rhs_plates m (d b t w : R) : 0 < b -> 0 < d ->
  same_boundary (parts_edges [(m, rect 0 0 b t); (m, rect 0 (d - t) b d); (m, rect 0 t w (d - t)); (m, rect (b - w) t b (d - t))])
    (S_Section.ring_edges m [(0, 0); (b, 0); (b, d); (0, d)] ++ S_Section.ring_edges m (rev [(w, t); (b - w, t); (b - w, d - t); (w, d - t)])).
Proof.
  intros H H'. set (p1 := (0, 0)). set (p2 := (b, 0)). set (p3 := (b, d)). set (p4 := (0, d)). set (q1 := (w, t)). set (q2 := (b - w, t)). set (q3 := (b - w, d - t)). set (q4 := (w, d - t)).
  set (e1 := (0, t)). set (e2 := (b, t)). set (e3 := (b, d - t)). set (e4 := (0, d - t)).
  change (same_boundary [(m, p1, p2); (m, p2, e2); (m, e2, e1); (m, e1, p1); (m, e4, e3); (m, e3, p3); (m, p3, p4); (m, p4, e4); (m, e1, q1); (m, q1, q4); (m, q4, e4); (m, e4, e1); (m, q2, e2); (m, e2, e3); (m, e3, q3); (m, q3, q2)]
    [(m, p1, p2); (m, p2, p3); (m, p3, p4); (m, p4, p1); (m, q4, q3); (m, q3, q2); (m, q2, q1); (m, q1, q4)]).
  splits2 m e2 e1 q2 q1 (w / b) ((b - w) / b). splits2 m e4 e3 q4 q3 (w / b) ((b - w) / b).
  cancels m e2 q2. cancels m q1 e1. cancels m e4 q4. cancels m q3 e3.
  apply sb_sym. splits2 m p2 p3 e2 e3 (t / d) ((d - t) / d). splits2 m p4 p1 e4 e1 (t / d) ((d - t) / d). apply sb_perm. perms.
Qed.
(** a ring of four vertices, in any direction and from any of them *)
Lemma cycle4 m (a b c d : pt) l : same_cycle [a; b; c; d] l -> 0 < ring_area [a; b; c; d] ->
  Permutation (S_Section.ring_edges m (left_ring l)) (S_Section.ring_edges m [a; b; c; d]) /\ Permutation (S_Section.ring_edges m (rev (left_ring l))) (S_Section.ring_edges m (rev [a; b; c; d])).
Proof.
  intros S P. assert (K : forall r : list pt, (exists x y, [a; b; c; d] = x ++ y /\ r = y ++ x) -> Permutation (S_Section.ring_edges m r) (S_Section.ring_edges m [a; b; c; d]) /\ Permutation (S_Section.ring_edges m (rev r)) (S_Section.ring_edges m (rev [a; b; c; d]))).
  { intros r (x & y & E & ->). destruct x as [|x1 [|x2 [|x3 [|x4 x]]]]; cbn [app] in E; try (injection E; clear E; intros); subst; cbn [app rev S_Section.ring_edges path_edges]; try (split; perms).
    match goal with H : [] = _ ++ _ |- _ => symmetry in H; apply app_eq_nil in H; destruct H; subst end. cbn [app rev S_Section.ring_edges path_edges]. split; perms. }
  destruct S as [S|S]; unfold left_ring.
  - assert (E : ring_area l = ring_area [a; b; c; d]) by (unfold ring_area; rewrite (same_ring_around _ _ _ S); reflexivity). rewrite E. destruct (Rlt_dec _ _); [lra|]. apply K, S.
  - assert (E : ring_area l = - ring_area [a; b; c; d]). { unfold ring_area. rewrite <- (same_ring_around _ _ _ S), (around_neg M_Geometry.cross) by (intros; unfold M_Geometry.cross; ring). lra. }
    rewrite E. destruct (Rlt_dec _ _); [|lra]. apply K. destruct S as (x & y & E1 & ->). exists (rev y), (rev x). rewrite <- (rev_involutive [a; b; c; d]), E1, !rev_app_distr. split; reflexivity.
Qed.
