(** A set operation that does what [cuts] and [insets] ask for; bars without place. *)
From Coq Require Import String Reals List Bool Arith ZArith Lra Lia Permutation ClassicalDescription.
From Verif Require Import Base M_Fea M_Init M_Bisect M_Geometry S_Geometry P_Geometry P_Geometry3 P_Geometry6 M_Library S_Library P_Library P_Library2 M_SetOps S_SetOps P_SetOps M_Concrete S_Concrete P_Concrete P_Concrete3 P_Concrete4 P_Concrete6 P_Concrete7.
Import ListNotations.
Local Open Scope R_scope.

(** ** A ring around a point is not on one side of it *)
Lemma increasing_ring (f : pt -> R) (l : list pt) : l <> [] -> Forall (fun e => f (fst e) < f (snd e)) (edges l) -> False.
Proof.
  intros N H. destruct l as [|a l]; [contradiction|]. unfold edges in H. cbn [tl firstn] in H. change (a :: l) with ([a] ++ l) in H at 1.
  assert (G : forall l x, Forall (fun e => f (fst e) < f (snd e)) (combine (x :: l) (l ++ [a])) -> f x < f a).
  { clear. induction l as [|y l IH]; intros x H; cbn [combine app] in H.
    - inversion H; subst. assumption.
    - inversion H as [|? ? H1 H2]; subst. cbn [fst snd] in H1. apply IH in H2. lra. }
  apply G in H. lra.
Qed.
Lemma edges_in l e : In e (edges l) -> In (fst e) l /\ In (snd e) l.
Proof.
  unfold edges. intros H. destruct e as [x y]. split; [eapply in_combine_l, H|]. apply in_combine_r in H. apply in_app_or in H as [H|H]; destruct l as [|a l]; cbn in *; auto. destruct H as [->|[]]. left. reflexivity.
Qed.
Lemma around_not_apart l p u v w : l <> [] -> Forall (fun q => u * fst q + v * snd q < w) l -> w < u * fst p + v * snd p ->
  (Forall (fun e => 0 < turn e p) (edges l) \/ Forall (fun e => turn e p < 0) (edges l)) -> False.
Proof.
  intros N A B H. set (A1 := fun q : pt => u * (fst q - fst p) + v * (snd q - snd p)). set (B1 := fun q : pt => u * (snd q - snd p) - v * (fst q - fst p)).
  assert (AN : forall q, In q l -> A1 q < 0). { intros q Hq. rewrite Forall_forall in A. specialize (A q Hq). cbv beta in A. unfold A1. lra. }
  assert (K : forall e, A1 (fst e) * B1 (snd e) - B1 (fst e) * A1 (snd e) = (u * u + v * v) * turn e p). { intros [[x y] [z t]]. unfold A1, B1, turn. cbn [fst snd]. ring. }
  assert (Z : 0 < u * u + v * v). { destruct l as [|q l]; [contradiction|]. specialize (AN q (or_introl eq_refl)). unfold A1 in AN. destruct (Req_dec u 0) as [->|U]; [|nra]. destruct (Req_dec v 0) as [->|V]; nra. }
  assert (F : forall e, In e (edges l) -> B1 (snd e) / A1 (snd e) - B1 (fst e) / A1 (fst e) = (u * u + v * v) * turn e p / (A1 (fst e) * A1 (snd e))).
  { intros e He. apply edges_in in He as [H1 H2]. apply AN in H1, H2. rewrite <- K. field. lra. }
  assert (P : forall e, In e (edges l) -> 0 < / (A1 (fst e) * A1 (snd e))). { intros e He. apply edges_in in He as [H1 H2]. apply AN in H1, H2. apply Rinv_0_lt_compat. nra. }
  destruct H as [H|H]; rewrite Forall_forall in H.
  - apply (increasing_ring (fun q => B1 q / A1 q) l N). apply Forall_forall. intros e He. specialize (F e He). specialize (P e He). specialize (H e He). unfold Rdiv at 3 in F. assert (0 < (u * u + v * v) * turn e p * / (A1 (fst e) * A1 (snd e))) by (repeat apply Rmult_lt_0_compat; assumption). lra.
  - apply (increasing_ring (fun q => - (B1 q / A1 q)) l N). apply Forall_forall. intros e He. specialize (F e He). specialize (P e He). specialize (H e He). unfold Rdiv at 3 in F. assert (0 < (u * u + v * v) * - turn e p * / (A1 (fst e) * A1 (snd e))) by (repeat apply Rmult_lt_0_compat; lra). lra.
Qed.
Lemma inside_not_apart a b : a <> [] -> b <> [] -> inside b a -> apart a b -> False.
Proof.
  intros N M I (u & v & w & A & B). destruct b as [|p b]; [contradiction|]. inversion B as [|? ? B1 _]; subst. apply (around_not_apart a p u v w N A B1). destruct I as [I|I]; inversion I; subst; [left|right]; assumption.
Qed.

Definition cutter : setops :=
  let s := fun a _ => ShMulti a in
  mkSetops s s
    (fun a b => match a, b with [p], [q] => if excluded_middle_informative (apart (ext p) (ext q)) then ShPolygon p else ShPolygon (mkPoly (ext p) (ext q :: ints p)) | _, _ => ShMulti a end) s
    (fun p t _ => match ext p with [a; _; c; _] => ShPolygon (mkPoly (outline (shrunk (- t) (a, c))) []) | _ => ShPolygon p end)
    (fun l => match l with [p] => Some p | _ => None end) (fun p _ => Some [p]) (fun p _ _ => Some p).
Lemma rings_refl ls : same_rings ls ls.
Proof. exists ls. split; [reflexivity|]. induction ls; constructor; [apply same_refl|assumption]. Qed.
Lemma cutter_cuts : cuts cutter.
Proof.
  split.
  - intros a b A. exists a. cbn [cutter so_difference]. match goal with |- context [excluded_middle_informative ?P] => destruct (excluded_middle_informative P) as [_|N] end; [|contradiction]. split; [reflexivity|]. split; [apply same_refl|apply rings_refl].
  - intros a b NA NB HB I F. exists (mkPoly (ext a) (ext b :: ints a)). cbn [cutter so_difference ext ints]. match goal with |- context [excluded_middle_informative ?P] => destruct (excluded_middle_informative P) as [A|_] end; [destruct (inside_not_apart _ _ NA NB I A)|]. split; [reflexivity|]. split; [apply same_refl|apply rings_refl].
Qed.
Lemma cutter_insets : insets cutter.
Proof.
  intros [[x1 y1] [x2 y2]] t k Ht H1 H2. eexists. cbn [cutter so_buffer outline ext]. split; [reflexivity|]. split; [|reflexivity]. cbn [ext]. rewrite Ropp_involutive. apply same_refl.
Qed.
Lemma cutter_works : workable cutter.
Proof. intros [|a [|a' al]] [|b [|b' bl]]; cbn [cutter so_difference]; try exact I. match goal with |- context [excluded_middle_informative ?P] => destruct (excluded_middle_informative P) end; exact I. Qed.

(** ** Side bars without a diameter *)
Lemma fold_result_app {A B} (f : A -> B -> result A) l l' a : fold_result f (l ++ l') a = bind (fold_result f l a) (fold_result f l').
Proof. revert a. induction l as [|b l IH]; intros a; [reflexivity|]. cbn [fold_result app]. destruct (f a b); [|reflexivity]. cbn [bind]. apply IH. Qed.
Lemma fold_bars_ok sh so area n m : workable so -> (3 <= n)%nat -> 1 / 10 ^ 20 <= area -> forall ps i, exists i', fold_result (add_bar sh so area n m) ps i = Ok i'.
Proof.
  intros W Hn Ha. induction ps as [|p ps IH]; intros i; [eexists; reflexivity|]. cbn [fold_result]. unfold add_bar at 1. destruct (bar_made sh area n m p Hn Ha) as (g & -> & _). cbn [bind]. unfold insert_bar. destruct (sub_ok sh so i (ISingle g) W) as (i1 & ->). cbn [bind]. apply IH.
Qed.
Lemma side_last sh so area n m dx i p : workable so -> (3 <= n)%nat -> 1 / 10 ^ 20 <= area ->
  exists c gs gl gr, add_side sh so area n m dx i p = Ok (ICompound c) /\ cp_geoms c = gs ++ [gl; gr] /\ bar area n m p gl /\ bar area n m (fst p + dx, snd p) gr.
Proof.
  intros W Hn Ha. destruct (bar_cut sh (mkRebar p area 0) n m Hn Ha) as (g & l & E & P & Q & L & r & R1 & C & F). destruct (bar_shift_cut sh (mkRebar p area 0) n m g l r dx Hn P Q L R1 C F) as (l' & P' & Q' & L'). cbn [rb_at rb_area] in *.
  unfold add_side. rewrite E. cbn [bind]. destruct (sub_ok sh so i (ISingle g) W) as (i1 & ->). cbn [bind]. destruct (sub_ok sh so i1 (ISingle (shift_section sh g dx 0)) W) as (i2 & ->). cbn [bind].
  eexists _, (members_of i2), g, (shift_section sh g dx 0). split; [reflexivity|]. split; [unfold add_geometry; rewrite !new_members; cbn [map concat members_of]; rewrite !new_members; cbn [map concat members_of]; rewrite !app_nil_r, <- app_assoc; reflexivity|].
  split.
  - destruct Q as (_ & _ & M & _), L as (_ & _ & s & S & _ & A & K). split; [exact M|]. rewrite P. split; [reflexivity|]. exists s. auto.
  - destruct Q' as (_ & _ & M & _), L' as (_ & _ & s & S & _ & A & K). split; [exact M|]. rewrite P'. split; [reflexivity|]. exists s. auto.
Qed.
Lemma fold_sides sh so area n m dx k : workable so -> (3 <= n)%nat -> 1 / 10 ^ 20 <= area -> forall (f : nat -> pt) i s,
  exists c gs gl gr, fold_result (add_side sh so area n m dx) (map f (seq s (S k))) i = Ok (ICompound c) /\ cp_geoms c = gs ++ [gl; gr] /\ bar area n m (f (s + k)%nat) gl /\ bar area n m (fst (f (s + k)%nat) + dx, snd (f (s + k)%nat)) gr.
Proof.
  intros W Hn Ha f. induction k as [|k IH]; intros i s.
  - cbn [seq map fold_result]. destruct (side_last sh so area n m dx i (f s) W Hn Ha) as (c & gs & gl & gr & -> & H). rewrite Nat.add_0_r. cbn [bind]. eauto 6.
  - cbn [seq map fold_result]. destruct (side_last sh so area n m dx i (f s) W Hn Ha) as (c & gs & gl & gr & -> & _). cbn [bind]. rewrite <- Nat.add_succ_comm. apply (IH (ICompound c) (S s)).
Qed.
Lemma side_bars_lost sh so d b dia_top area_top n_top c_top dia_bot area_bot n_bot c_bot area_side n_side c_side n conc steel : workable so -> (3 <= n)%nat ->
  1 / 10 ^ 20 <= area_top -> 1 / 10 ^ 20 <= area_bot -> 1 / 10 ^ 20 <= area_side -> tiny <= d -> tiny <= b -> (1 <= n_side)%nat ->
  exists c gs gl gr, concrete_rectangular_section sh so d b dia_top area_top n_top c_top dia_bot area_bot n_bot c_bot None (Some area_side) n_side c_side n conc steel = Ok c /\
    cp_geoms c = gs ++ [gl; gr] /\ bar area_side n steel (0, c_bot + dia_bot / 2) gl /\ bar area_side n steel (0, c_bot + dia_bot / 2) gr.
Proof.
  intros W Hn A1 A2 A3 D1 D2 NS. assert (Z : 0 < area_side) by (eapply Rlt_le_trans; [|exact A3]; apply Rdiv_lt_0_compat; [lra|apply pow_lt; lra]).
  unfold concrete_rectangular_section. destruct (rect_made sh d b conc D1 D2) as (g & -> & _). cbn [bind truthy_num].
  unfold add_layers. destruct (fold_bars_ok sh so area_top n steel W Hn A1 (map (fun i => (fst (layer b n_top dia_top c_top c_side) + snd (layer b n_top dia_top c_top c_side) * INR i, d - c_top - dia_top / 2)) (seq 0 n_top)) (ISingle g)) as (g1 & ->). cbn [bind].
  destruct (fold_bars_ok sh so area_bot n steel W Hn A2 (map (fun i => (fst (layer b n_bot dia_bot c_bot c_side) + snd (layer b n_bot dia_bot c_bot c_side) * INR i, c_bot + dia_bot / 2)) (seq 0 n_bot)) g1) as (g2 & ->). cbn [bind].
  unfold truthy_num. destruct (Req_EM_T area_side 0) as [E|_]; [lra|]. destruct n_side as [|k]; [lia|]. rewrite Rminus_0_r.
  destruct (fold_sides sh so area_side n steel 0 k W Hn A3 (fun i => (0, c_bot + dia_bot / 2 + 0 * INR (i + 1))) g2 0) as (c & gs & gl & gr & E & G & B1 & B2). exists c, gs, gl, gr. split; [transitivity (bind (Ok (ICompound c)) must_be_compound); [f_equal; exact E|reflexivity]|]. cbn [fst snd Nat.add] in B1, B2. rewrite Rmult_0_l, Rplus_0_r in B1, B2. rewrite Rplus_0_r in B2. auto.
Qed.
(** No bars at all *)
Lemma no_bars sh so d b dia_top area_top c_top dia_bot area_bot c_bot dia_side area_side n_side c_side n conc steel : tiny <= d -> tiny <= b -> area_side = None \/ n_side = 0%nat ->
  concrete_rectangular_section sh so d b dia_top area_top 0 c_top dia_bot area_bot 0 c_bot dia_side area_side n_side c_side n conc steel = Err ValueError.
Proof.
  intros D1 D2 H. unfold concrete_rectangular_section. destruct (rect_made sh d b conc D1 D2) as (g & -> & _). cbn [bind]. unfold add_layers. cbn [seq map fold_result bind].
  destruct (match truthy_num dia_side with Some _ => _ | None => _ end) as [[xl xr] sp]. destruct H as [->| ->]; [reflexivity|]. cbn [seq map fold_result]. destruct (truthy_num area_side); reflexivity.
Qed.
