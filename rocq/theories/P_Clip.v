(** An exact cutting routine for regions made of triangles: shows that the oracle hypotheses of the plastic
    theorems can be met for every section. *)
From Coquelicot Require Import Coquelicot.
From Coq Require Import Reals Lra Lia List Psatz Permutation.
From Verif Require Import Base S_Integral P_Integral M_Fea S_Fem P_Fea P_Geom S_Section P_Section P_Totals M_Bisect M_Props M_Plastic S_Plastic P_Ridge P_Plastic P_Plastic2.
Import ListNotations.
Local Open Scope R_scope.

Ltac perm_solve :=
  match goal with
  | |- Permutation [] [] => apply perm_nil
  | |- Permutation (?x :: ?l) ?l' =>
      let rec go pre l2 :=
        match l2 with
        | ?y :: ?t => first [ unify x y; change l' with (pre ++ x :: t); apply Permutation_cons_app; cbn [app] | go (pre ++ [y]) t ]
        end in
      go (@nil edge) l'; perm_solve
  end.

Definition along (p q : point) (t : R) : point := (fst p + t * (fst q - fst p), snd p + t * (snd q - snd p)).

Definition keep (t : mtri) : list mtri := if Rlt_dec 0 (orient (mt_a t) (mt_b t) (mt_c t)) then [t] else [].

Definition clip_lone (f : point -> R) (m : material) (a b c : point) : list mtri :=
  let r := along a b (f a / (f a - f b)) in
  let q := along a c (f a / (f a - f c)) in
  keep (mkMtri m a r q) ++ keep (mkMtri m r b c) ++ keep (mkMtri m r c q).

Definition lone_dec (f : point -> R) (a b c : point) : bool :=
  if Rlt_dec 0 (f a) then (if Rle_dec (f b) 0 then if Rle_dec (f c) 0 then true else false else false)
  else if Rlt_dec (f a) 0 then (if Rle_dec 0 (f b) then if Rle_dec 0 (f c) then true else false else false)
  else false.

Definition clip (f : point -> R) (t : mtri) : list mtri :=
  let '(mkMtri m a b c) := t in
  if lone_dec f a b c then clip_lone f m a b c
  else if lone_dec f b c a then clip_lone f m b c a
  else if lone_dec f c a b then clip_lone f m c a b
  else [t].

Definition affine_fun (f : point -> R) : Prop := exists k0 k1 k2, (forall p, f p = k0 + k1 * fst p + k2 * snd p) /\ (k1 <> 0 \/ k2 <> 0).

Lemma affine_along f p q t : affine_fun f -> f (along p q t) = f p + t * (f q - f p).
Proof. intros (k0 & k1 & k2 & H & _). rewrite !H. unfold along. cbn [fst snd]. ring. Qed.

Lemma lone_true f a b c : lone_dec f a b c = true -> (0 < f a /\ f b <= 0 /\ f c <= 0) \/ (f a < 0 /\ 0 <= f b /\ 0 <= f c).
Proof.
  unfold lone_dec. repeat match goal with |- context [if ?x then _ else _] => destruct x end; intros; try discriminate; auto.
Qed.
Lemma lone_false f a b c : lone_dec f a b c = false -> ~ (0 < f a /\ f b <= 0 /\ f c <= 0) /\ ~ (f a < 0 /\ 0 <= f b /\ 0 <= f c).
Proof.
  unfold lone_dec. repeat match goal with |- context [if ?x then _ else _] => destruct x end; intros; try discriminate; lra.
Qed.

Definition one_sided (f : point -> R) (t : mtri) : Prop :=
  (forall p, In p (corners t) -> 0 <= f p) \/ (forall p, In p (corners t) -> f p <= 0).

Lemma sb_loop m p l : same_boundary ((m, p, p) :: l) l.
Proof.
  eapply sb_trans; [apply (sb_split m p p 0 l)|].
  replace (fst p + 0 * (fst p - fst p), snd p + 0 * (snd p - snd p)) with p by (destruct p; cbn [fst snd]; f_equal; ring).
  apply sb_cancel.
Qed.

(** Dropping a degenerate triangle. *)
Lemma degenerate_edges m (a b c : point) l : (a = b \/ b = c \/ c = a) ->
  same_boundary ((m, a, b) :: (m, b, c) :: (m, c, a) :: l) l.
Proof.
  intros [E|[E|E]]; subst.
  - eapply sb_trans; [apply sb_loop|]. apply sb_cancel.
  - eapply sb_trans; [apply sb_perm, perm_swap|]. eapply sb_trans; [apply sb_loop|]. apply sb_cancel.
  - eapply sb_trans; [apply sb_cancel|]. apply sb_loop.
Qed.

Lemma keep_edges m a b c : (0 < orient a b c \/ (orient a b c <= 0 /\ (a = b \/ b = c \/ c = a))) ->
  same_boundary (region_edges (keep (mkMtri m a b c))) [(m, a, b); (m, b, c); (m, c, a)].
Proof.
  intros H. unfold keep. cbn [mt_a mt_b mt_c]. destruct (Rlt_dec 0 (orient a b c)) as [L|L].
  - unfold region_edges. cbn [map concat mt_edges mt_mat mt_a mt_b mt_c app]. apply sb_refl.
  - destruct H as [H|[_ H]]; [lra|]. apply sb_sym. apply (degenerate_edges m a b c [] H).
Qed.

Lemma keep_ccw t : Forall ccw (keep t).
Proof. unfold keep. destruct (Rlt_dec 0 (orient (mt_a t) (mt_b t) (mt_c t))); [constructor; [assumption|constructor]|constructor]. Qed.
Lemma keep_in t t' : In t' (keep t) -> t' = t.
Proof. unfold keep. destruct Rlt_dec; cbn; intuition congruence. Qed.

Lemma along_0 p q : along p q 0 = p.
Proof. unfold along. destruct p; cbn [fst snd]. f_equal; ring. Qed.
Lemma along_1 p q : along p q 1 = q.
Proof. unfold along. destruct q; cbn [fst snd]. f_equal; ring. Qed.

Lemma clip_lone_ok f m a b c : affine_fun f -> 0 < orient a b c ->
  (0 < f a /\ f b <= 0 /\ f c <= 0) \/ (f a < 0 /\ 0 <= f b /\ 0 <= f c) ->
  Forall ccw (clip_lone f m a b c) /\ (forall t, In t (clip_lone f m a b c) -> mt_mat t = m /\ one_sided f t) /\
  same_boundary (region_edges (clip_lone f m a b c)) [(m, a, b); (m, b, c); (m, c, a)].
Proof.
  intros Hf Ho Hl. unfold clip_lone.
  set (tr := f a / (f a - f b)). set (tq := f a / (f a - f c)).
  assert (Dr : f a - f b <> 0) by (destruct Hl; lra). assert (Dq : f a - f c <> 0) by (destruct Hl; lra).
  assert (Tr : tr * (f a - f b) = f a) by (unfold tr; field; exact Dr).
  assert (Tq : tq * (f a - f c) = f a) by (unfold tq; field; exact Dq).
  assert (Br : 0 < tr <= 1) by (destruct Hl as [(?&?&?)|(?&?&?)]; split; nra).
  assert (Bq : 0 < tq <= 1) by (destruct Hl as [(?&?&?)|(?&?&?)]; split; nra).
  assert (Fr : f (along a b tr) = 0) by (rewrite (affine_along f a b tr Hf); lra).
  assert (Fq : f (along a c tq) = 0) by (rewrite (affine_along f a c tq Hf); lra).
  set (r := along a b tr) in *. set (q := along a c tq) in *.
  assert (O1 : orient a r q = tr * tq * orient a b c) by (unfold r, q, along, orient; cbn [fst snd]; ring).
  assert (O2 : orient r b c = (1 - tr) * orient a b c) by (unfold r, q, along, orient; cbn [fst snd]; ring).
  assert (O3 : orient r c q = tr * (1 - tq) * orient a b c) by (unfold r, q, along, orient; cbn [fst snd]; ring).
  split; [|split].
  - rewrite !Forall_app. repeat split; apply keep_ccw.
  - intros t Ht. rewrite !in_app_iff in Ht.
    destruct Ht as [Ht|[Ht|Ht]]; apply keep_in in Ht; subst t; (split; [reflexivity|]); unfold one_sided, corners; cbn [mt_a mt_b mt_c].
    + destruct Hl as [(A&B&C)|(A&B&C)]; [left|right]; intros p [<-|[<-|[<-|[]]]]; lra.
    + destruct Hl as [(A&B&C)|(A&B&C)]; [right|left]; intros p [<-|[<-|[<-|[]]]]; lra.
    + destruct Hl as [(A&B&C)|(A&B&C)]; [right|left]; intros p [<-|[<-|[<-|[]]]]; lra.
  - rewrite !region_edges_app.
    eapply sb_trans; [apply sb_app; [apply keep_edges|apply sb_app; apply keep_edges]|].
    + left. rewrite O1. apply Rmult_lt_0_compat; [apply Rmult_lt_0_compat; lra|exact Ho].
    + destruct (Req_dec tr 1) as [E|E].
      * right. split; [rewrite O2, E; lra|]. left. unfold r. rewrite E. apply along_1.
      * left. rewrite O2. apply Rmult_lt_0_compat; lra.
    + destruct (Req_dec tq 1) as [E|E].
      * right. split; [rewrite O3, E; lra|]. right. left. unfold q. rewrite E. symmetry. apply along_1.
      * left. rewrite O3. apply Rmult_lt_0_compat; [apply Rmult_lt_0_compat; lra|lra].
    + (* edges: a r, r q, q a, r b, b c, c r, r c, c q, q r *)
      cbn [app].
      eapply sb_trans.
      { apply (sb_perm _ ((m, r, q) :: (m, q, r) :: (m, c, r) :: (m, r, c) :: (m, a, r) :: (m, r, b) :: (m, b, c) :: (m, c, q) :: (m, q, a) :: [])).
        perm_solve. }
      eapply sb_trans; [apply sb_cancel|]. eapply sb_trans; [apply sb_cancel|].
      eapply sb_trans; [apply sb_sym; apply (sb_split m a b tr)|].
      eapply sb_trans.
      { apply (sb_perm _ ((m, q, a) :: (m, c, q) :: (m, a, b) :: (m, b, c) :: [])). perm_solve. }
      eapply sb_trans.
      { apply (sb_perm _ ((m, c, q) :: (m, q, a) :: (m, a, b) :: (m, b, c) :: [])). perm_solve. }
      eapply sb_trans.
      { assert (Q : q = (fst c + (1 - tq) * (fst a - fst c), snd c + (1 - tq) * (snd a - snd c))) by (unfold q, along; f_equal; ring).
        rewrite Q. apply sb_sym. apply (sb_split m c a (1 - tq)). }
      apply sb_perm. perm_solve.
Qed.

Lemma clip_ok f t : affine_fun f -> ccw t ->
  Forall ccw (clip f t) /\ (forall t', In t' (clip f t) -> mt_mat t' = mt_mat t /\ one_sided f t') /\ same_boundary (region_edges (clip f t)) (mt_edges t).
Proof.
  intros Hf Hc. destruct t as [m a b c]. unfold ccw in Hc. cbn [mt_a mt_b mt_c] in Hc.
  assert (Ob : orient b c a = orient a b c) by (unfold orient; ring).
  assert (Oc : orient c a b = orient a b c) by (unfold orient; ring).
  unfold clip, mt_edges. cbn [mt_mat mt_a mt_b mt_c].
  destruct (lone_dec f a b c) eqn:E1; [apply clip_lone_ok; [exact Hf|exact Hc|apply lone_true, E1]|].
  destruct (lone_dec f b c a) eqn:E2.
  { destruct (clip_lone_ok f m b c a Hf ltac:(lra) (lone_true _ _ _ _ E2)) as (A & B & C).
    split; [exact A|split; [exact B|]]. eapply sb_trans; [exact C|]. apply sb_perm. perm_solve. }
  destruct (lone_dec f c a b) eqn:E3.
  { destruct (clip_lone_ok f m c a b Hf ltac:(lra) (lone_true _ _ _ _ E3)) as (A & B & C).
    split; [exact A|split; [exact B|]]. eapply sb_trans; [exact C|]. apply sb_perm. perm_solve. }
  apply lone_false in E1, E2, E3.
  split; [constructor; [exact Hc|constructor]|]. split.
  - intros t' [<-|[]]. split; [reflexivity|]. unfold one_sided, corners. cbn [mt_a mt_b mt_c].
    assert (D : (0 <= f a /\ 0 <= f b /\ 0 <= f c) \/ (f a <= 0 /\ f b <= 0 /\ f c <= 0)).
    { destruct (Rlt_le_dec 0 (f a)), (Rlt_le_dec 0 (f b)), (Rlt_le_dec 0 (f c)), (Rlt_le_dec (f a) 0), (Rlt_le_dec (f b) 0), (Rlt_le_dec (f c) 0); lra. }
    destruct D as [D|D]; [left|right]; intros p [<-|[<-|[<-|[]]]]; lra.
  - apply sb_refl.
Qed.

(** The description of a triangle as a polygon. *)
Definition tri_piece (t : mtri) : piece :=
  let cx := (fst (mt_a t) + fst (mt_b t) + fst (mt_c t)) / 3 in
  let cy := (snd (mt_a t) + snd (mt_b t) + snd (mt_c t)) / 3 in
  mkPiece (cx, cy) (orient (mt_a t) (mt_b t) (mt_c t) / 2) cx cy.

Definition clip_split (shape : list mtri) (line : segment) : list piece :=
  map tri_piece (concat (map (clip (left_of line)) shape)).

Lemma left_affine line b : spans b line -> affine_fun (left_of line).
Proof.
  destruct line as [[x1 y1] [x2 y2]]. destruct b as [[[xa xb] ya] yb]. intros H.
  exists (- (x2 - x1) * y1 + (y2 - y1) * x1), (- (y2 - y1)), (x2 - x1). split.
  - intros p. unfold left_of. ring.
  - unfold spans in H. destruct H as [H|H]; [right|left]; lra.
Qed.

Lemma tri_piece_describes line t b : spans b line -> ccw t -> one_sided (left_of line) t -> describes line (tri_piece t) [t].
Proof.
  intros Hs Hc Ho. unfold describes. unfold ccw in Hc.
  pose proof (tri_int_height (1, 0) 0 (mt_a t) (mt_b t) (mt_c t)) as IX.
  pose proof (tri_int_height (0, 1) 0 (mt_a t) (mt_b t) (mt_c t)) as IY.
  rewrite (tri_int_ext _ _ _ _ (fun x _ => x)) in IX by (intros; unfold height; cbn [fst snd]; ring).
  rewrite (tri_int_ext _ _ _ _ (fun _ y => y)) in IY by (intros; unfold height; cbn [fst snd]; ring).
  unfold region_int. rewrite !sumf_cons, !sumf_nil. unfold mt_int. rewrite tri_int_one, IX, IY.
  rewrite Rabs_pos_eq by lra. unfold tri_piece, height. cbn [pc_area pc_cx pc_cy pc_rep fst snd].
  split; [constructor; [exact Hc|constructor]|]. split; [field|]. split; [field|]. split; [field|].
  destruct (left_affine line b Hs) as (k0 & k1 & k2 & Hk & Hnz).
  set (f := left_of line) in *.
  assert (M : f ((fst (mt_a t) + fst (mt_b t) + fst (mt_c t)) / 3, (snd (mt_a t) + snd (mt_b t) + snd (mt_c t)) / 3)
     = (f (mt_a t) + f (mt_b t) + f (mt_c t)) / 3) by (rewrite !Hk; cbn [fst snd]; field).
  rewrite M.
  assert (NZ : ~ (f (mt_a t) = 0 /\ f (mt_b t) = 0 /\ f (mt_c t) = 0)).
  { intros (A & B & C). rewrite Hk in A, B, C. unfold orient in Hc.
    set (p1 := fst (mt_b t) - fst (mt_a t)) in *. set (p2 := snd (mt_b t) - snd (mt_a t)) in *.
    set (q1 := fst (mt_c t) - fst (mt_a t)) in *. set (q2 := snd (mt_c t) - snd (mt_a t)) in *.
    assert (E1 : k1 * p1 + k2 * p2 = 0) by (unfold p1, p2; lra). assert (E2 : k1 * q1 + k2 * q2 = 0) by (unfold q1, q2; lra).
    assert (X1 : k1 * (p1 * q2 - q1 * p2) = 0) by (transitivity (q2 * (k1 * p1 + k2 * p2) - p2 * (k1 * q1 + k2 * q2)); [ring|rewrite E1, E2; ring]).
    assert (X2 : k2 * (p1 * q2 - q1 * p2) = 0) by (transitivity (p1 * (k1 * q1 + k2 * q2) - q1 * (k1 * p1 + k2 * p2)); [ring|rewrite E1, E2; ring]).
    apply Rmult_integral in X1, X2. destruct Hnz, X1, X2; lra. }
  unfold one_sided, corners in Ho. fold f in Ho.
  destruct Ho as [Ho|Ho].
  - pose proof (Ho (mt_a t) ltac:(cbn; auto)). pose proof (Ho (mt_b t) ltac:(cbn; auto)). pose proof (Ho (mt_c t) ltac:(cbn; auto)).
    exists 1. split; [left; reflexivity|]. split; [lra|]. intros t' p [<-|[]] Hp. specialize (Ho p Hp). lra.
  - pose proof (Ho (mt_a t) ltac:(cbn; auto)). pose proof (Ho (mt_b t) ltac:(cbn; auto)). pose proof (Ho (mt_c t) ltac:(cbn; auto)).
    exists (-1). split; [right; reflexivity|]. split; [lra|]. intros t' p [<-|[]] Hp. specialize (Ho p Hp). lra.
Qed.

Lemma clip_covers m bounds shape : shape <> [] -> Forall ccw shape -> (forall t, In t shape -> mt_mat t = m) ->
  (forall t p, In t shape -> In p (corners t) -> in_bounds bounds p) ->
  covers (mkPlane m bounds (clip_split shape)) shape.
Proof.
  intros Hne Hc Hm Hb. unfold covers. cbn [pg_mat pg_bounds pg_split].
  split; [exact Hne|split; [exact Hc|split; [exact Hm|split; [exact Hb|]]]].
  intros line Hs. pose proof (left_affine line bounds Hs) as Hf.
  set (L := concat (map (clip (left_of line)) shape)).
  assert (HL : Forall ccw L /\ (forall t, In t L -> mt_mat t = m /\ one_sided (left_of line) t) /\ same_boundary (region_edges L) (region_edges shape)).
  { unfold L. clear Hb Hne L. induction shape as [|t shape IH]; cbn [map concat].
    - split; [constructor|split; [intros t []|apply sb_refl]].
    - inversion Hc as [|? ? Ht Hcs]; subst.
      destruct IH as (A & B & C); [exact Hcs|intros t' Ht'; apply Hm; right; exact Ht'|].
      destruct (clip_ok (left_of line) t Hf Ht) as (A' & B' & C').
      split; [apply Forall_app; split; assumption|]. split.
      + intros t' Ht'. apply in_app_iff in Ht'. destruct Ht' as [Ht'|Ht']; [|apply B, Ht'].
        destruct (B' t' Ht') as [X Y]. split; [rewrite X; apply Hm; left; reflexivity|exact Y].
      + rewrite region_edges_app. change (region_edges (t :: shape)) with (mt_edges t ++ region_edges shape). apply sb_app; assumption. }
  destruct HL as (A & B & C).
  exists (map (fun t => [t]) L).
  assert (E : concat (map (fun t : mtri => [t]) L) = L).
  { clear. induction L as [|t L IH]; [reflexivity|]. cbn [map concat app]. rewrite IH. reflexivity. }
  rewrite E. split; [|split; [intros t Ht; apply (B t Ht)|exact C]].
  unfold clip_split. fold L. clear C E. induction L as [|t L' IH]; [constructor|].
  inversion A as [|? ? Ht HcL]; subst. cbn [map]. constructor.
  - apply (tri_piece_describes line t bounds Hs Ht). apply B. left; reflexivity.
  - apply IH; [exact HcL|]. intros t' Ht'. apply B. right; exact Ht'.
Qed.
