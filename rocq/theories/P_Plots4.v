(** Proofs about the plot of the geometry. *)
From Coq Require Import String Reals List Bool Arith Lra Lia.
From Verif Require Import Base M_Fea M_Init S_Init M_Geometry S_Geometry P_Geometry6 M_Plots S_Plots.
Import ListNotations.
Local Open Scope string_scope.
Local Open Scope R_scope.

(** ** The geometry *)
Definition line_of (points : list pt) (q : nat * (nat * nat)) : mark := Line (nth (fst (snd q)) points (0, 0)) (nth (snd (snd q)) points (0, 0)) (first_label "Points & Facets" (fst q)).
Definition facet_number (points : list pt) (q : nat * (nat * nat)) : mark :=
  let a := nth (fst (snd q)) points (0, 0) in let b := nth (snd (snd q)) points (0, 0) in Number (fst q) ((fst a + fst b) / 2, (snd a + snd b) / 2).
Lemma enumerate_combine {A} (l : list A) : enumerate l = combine (seq 0 (length l)) l. Proof. reflexivity. Qed.
Lemma snd_combine {A B} (a : list A) (b : list B) : length a = length b -> map snd (combine a b) = b.
Proof. revert b. induction a as [|x a IH]; intros [|y b] H; try discriminate H; [reflexivity|]. cbn [combine map snd]. f_equal. apply IH. now injection H. Qed.
Lemma map_combine_r {A B C} (f : B -> C) (a : list A) (b : list B) : map (fun q => (fst q, f (snd q))) (combine a b) = combine a (map f b).
Proof. revert b. induction a as [|x a IH]; intros [|y b]; [reflexivity|reflexivity|reflexivity|]. cbn [combine map fst snd]. f_equal. apply IH. Qed.
Definition in_range (points : list pt) (f : nat * nat) : Prop := (fst f < length points)%nat /\ (snd f < length points)%nat.
Lemma in_enumerate {A} (l : list A) q : In q (enumerate l) -> In (snd q) l.
Proof. intros H. destruct q as [i x]. apply in_combine_r in H. exact H. Qed.
Lemma lines_made points facets : Forall (in_range points) facets ->
  map_result (fun q : nat * (nat * nat) => let '(i, f) := q in bind (point_at points (fst f)) (fun a => bind (point_at points (snd f)) (fun b => Ok (Line a b (first_label "Points & Facets" i))))) (enumerate facets)
  = Ok (map (line_of points) (enumerate facets)).
Proof.
  intros F. apply map_result_ok. apply Forall_forall. intros q Hq. apply in_enumerate in Hq. rewrite Forall_forall in F. destruct (F _ Hq) as [A B]. destruct q as [i f]. cbn [snd] in *. unfold point_at.
  rewrite (nth_error_nth' points (0, 0) A), (nth_error_nth' points (0, 0) B). reflexivity.
Qed.
Lemma numbers_made points facets : Forall (in_range points) facets ->
  map_result (fun q : nat * (nat * nat) => let '(i, f) := q in bind (point_at points (fst f)) (fun a => bind (point_at points (snd f)) (fun b => Ok (Number i ((fst a + fst b) / 2, (snd a + snd b) / 2))))) (enumerate facets)
  = Ok (map (facet_number points) (enumerate facets)).
Proof.
  intros F. apply map_result_ok. apply Forall_forall. intros q Hq. apply in_enumerate in Hq. rewrite Forall_forall in F. destruct (F _ Hq) as [A B]. destruct q as [i f]. cbn [snd] in *. unfold point_at.
  rewrite (nth_error_nth' points (0, 0) A), (nth_error_nth' points (0, 0) B). reflexivity.
Qed.
Definition number_at (q : nat * pt) : mark := Number (fst q) (snd q).
Definition label_marks points facets holes control_points (label : string) : list mark :=
  ((if label =? "control_points" then map number_at (enumerate control_points) else []) ++ (if label =? "points" then map number_at (enumerate points) else []) ++
   (if label =? "facets" then map (facet_number points) (enumerate facets) else []) ++ (if label =? "holes" then map number_at (enumerate holes) else []))%list.
Lemma plot_made points facets holes cps labels cp : Forall (in_range points) facets ->
  plot_geometry points facets holes cps labels cp = Ok (map (line_of points) (enumerate facets) ++ map (fun q => Marker "rx" (snd q) (first_label "Holes" (fst q))) (enumerate holes) ++
    (if cp then map (fun q => Marker "bo" (snd q) (first_label "Control Points" (fst q))) (enumerate cps) else []) ++ concat (map (label_marks points facets holes cps) labels))%list.
Proof.
  intros F. unfold plot_geometry. rewrite (lines_made _ _ F). cbn [bind]. cbv zeta. rewrite (map_result_ok _ (label_marks points facets holes cps)); [reflexivity|].
  apply Forall_forall. intros label _. unfold label_marks. destruct (label =? "facets"); [rewrite (numbers_made _ _ F)|]; reflexivity.
Qed.
Lemma plot_refused points facets holes cps labels cp : ~ Forall (in_range points) facets -> plot_geometry points facets holes cps labels cp = Err IndexError.
Proof.
  intros F. unfold plot_geometry. match goal with |- bind ?x _ = _ => assert (E : x = Err IndexError) end; [|rewrite E; reflexivity].
  unfold enumerate. generalize 0%nat. induction facets as [|f fs IH]; intros k; [contradiction F; constructor|]. cbn [length seq combine map_result]. unfold point_at at 1.
  destruct (nth_error points (fst f)) as [a|] eqn:A; [|reflexivity]. cbn [bind]. unfold point_at at 1. destruct (nth_error points (snd f)) as [b|] eqn:B; [|reflexivity]. cbn [bind].
  assert (G : in_range points f) by (split; apply nth_error_Some; congruence). rewrite IH; [reflexivity|]. intros K. apply F. constructor; assumption.
Qed.
(** What each part holds *)
Section Collect.
Context {B : Type} (f : mark -> list B).
Definition collect (l : list mark) : list B := concat (map f l).
Lemma collect_app a b : collect (a ++ b)%list = (collect a ++ collect b)%list. Proof. unfold collect. rewrite map_app. apply concat_app. Qed.
Lemma collect_nil {A} (g : A -> mark) l : (forall x, f (g x) = []) -> collect (map g l) = [].
Proof. intros H. unfold collect. induction l as [|x l IH]; [reflexivity|]. cbn [map concat]. rewrite H. exact IH. Qed.
Lemma collect_one {A} (g : A -> mark) (v : A -> B) l : (forall x, f (g x) = [v x]) -> collect (map g l) = map v l.
Proof. intros H. unfold collect. induction l as [|x l IH]; [reflexivity|]. cbn [map concat]. rewrite H, IH. reflexivity. Qed.
Lemma collect_concat {A} (g : A -> list mark) l : collect (concat (map g l)) = concat (map (fun x => collect (g x)) l).
Proof. induction l as [|x l IH]; [reflexivity|]. cbn [map concat]. rewrite collect_app, IH. reflexivity. Qed.
Lemma collect_none {A} (g : A -> list mark) l : (forall x, collect (g x) = []) -> collect (concat (map g l)) = [].
Proof. intros H. rewrite collect_concat. induction l as [|x l IH]; [reflexivity|]. cbn [map concat]. rewrite H. exact IH. Qed.
End Collect.
Lemma label_only {B} (f : mark -> list B) points facets holes cps label : (forall i a, f (Number i a) = []) -> collect f (label_marks points facets holes cps label) = [].
Proof.
  intros H. unfold label_marks. rewrite !collect_app. assert (K : forall (b : bool) (x : list mark), collect f x = [] -> collect f (if b then x else []) = []) by (intros [] x Hx; [exact Hx|reflexivity]).
  rewrite !K; [reflexivity|..]; apply collect_nil; intros x; apply H.
Qed.
Lemma enumerate_snd {A} (l : list A) : map snd (enumerate l) = l.
Proof. apply snd_combine, seq_length. Qed.
Lemma labels_at {A} (g : nat * A -> mark) s l : (forall q, collect (fun m => match m with Line _ _ (Some s) | Marker _ _ (Some s) => [s] | _ => [] end) [g q] = match first_label s (fst q) with Some s => [s] | None => [] end) ->
  collect (fun m => match m with Line _ _ (Some s) | Marker _ _ (Some s) => [s] | _ => [] end) (map g (enumerate l)) = match l with [] => [] | _ => [s] end.
Proof.
  intros H. unfold enumerate. destruct l as [|x l]; [reflexivity|]. cbn [length seq combine map]. unfold collect in *. cbn [map concat]. specialize (H (0%nat, x)) as H0. cbn [map concat] in H0. rewrite app_nil_r in H0. rewrite H0. cbn [fst first_label Nat.eqb].
  enough (E : forall k, concat (map (fun m => match m with Line _ _ (Some s) | Marker _ _ (Some s) => [s] | _ => [] end) (map g (combine (seq (S k) (length l)) l))) = []) by (unfold first_label; cbn [Nat.eqb]; rewrite E; reflexivity).
  clear H0. induction l as [|y l IH]; intros k; [reflexivity|]. cbn [length seq combine map concat]. rewrite IH, app_nil_r. specialize (H (S k, y)). cbn [map concat] in H. rewrite app_nil_r in H. rewrite H. reflexivity.
Qed.
Lemma geometry_marks points facets holes cps labels cp l : Forall (in_range points) facets -> plot_geometry points facets holes cps labels cp = Ok l ->
  lines_of l = edges points facets /\ markers_of "rx" l = holes /\ markers_of "bo" l = (if cp then cps else []) /\ (forall st, st <> "rx" -> st <> "bo" -> markers_of st l = []) /\
  numbers_of l = concat (map (numbers_for points facets holes cps) labels) /\
  labels_of l = (entry_for "Points & Facets" facets ++ entry_for "Holes" holes ++ (if cp then entry_for "Control Points" cps else []))%list.
Proof.
  intros F E. rewrite (plot_made _ _ _ _ _ _ F) in E. injection E as <-.
  assert (Cp : forall (B : Type) (f : mark -> list B) a (b : list mark), b = [] -> collect f (if cp then a else b) = if cp then collect f a else []) by (intros B f a b ->; destruct cp; reflexivity).
  repeat split.
  - unfold lines_of. change (concat (map ?f ?l)) with (collect f l). rewrite !collect_app, Cp by reflexivity. rewrite (collect_none _ (label_marks points facets holes cps)) by (intros x; apply label_only; reflexivity).
    rewrite (collect_nil _ _ (enumerate holes)) by reflexivity. rewrite (collect_nil _ _ (enumerate cps)) by reflexivity.
    rewrite (collect_one _ (line_of points) (fun q => (nth (fst (snd q)) points (0, 0), nth (snd (snd q)) points (0, 0)))) by reflexivity.
    unfold edges. rewrite <- (map_map snd (fun f => (nth (fst f) points (0, 0), nth (snd f) points (0, 0)))), enumerate_snd. destruct cp; rewrite ?app_nil_r; reflexivity.
  - unfold markers_of. change (concat (map ?f ?l)) with (collect f l). rewrite !collect_app, Cp by reflexivity. rewrite (collect_none _ (label_marks points facets holes cps)) by (intros x; apply label_only; reflexivity).
    rewrite (collect_nil _ (line_of points)) by reflexivity. rewrite (collect_nil _ _ (enumerate cps)) by reflexivity. rewrite (collect_one _ _ snd (enumerate holes)) by reflexivity. rewrite enumerate_snd. destruct cp; cbn [app]; rewrite ?app_nil_r; reflexivity.
  - unfold markers_of. change (concat (map ?f ?l)) with (collect f l). rewrite !collect_app, Cp by reflexivity. rewrite (collect_none _ (label_marks points facets holes cps)) by (intros x; apply label_only; reflexivity).
    rewrite (collect_nil _ (line_of points)) by reflexivity. rewrite (collect_nil _ _ (enumerate holes)) by reflexivity. rewrite (collect_one _ _ snd (enumerate cps)) by reflexivity. rewrite enumerate_snd. destruct cp; cbn [app]; rewrite ?app_nil_r; reflexivity.
  - intros st N1 N2. unfold markers_of. change (concat (map ?f ?l)) with (collect f l). rewrite !collect_app, Cp by reflexivity. rewrite (collect_none _ (label_marks points facets holes cps)) by (intros x; apply label_only; reflexivity).
    rewrite (collect_nil _ (line_of points)) by reflexivity. apply String.eqb_neq in N1, N2. rewrite String.eqb_sym in N1, N2. rewrite (collect_nil _ _ (enumerate holes)) by (intros x; rewrite N1; reflexivity). rewrite (collect_nil _ _ (enumerate cps)) by (intros x; rewrite N2; reflexivity). destruct cp; reflexivity.
  - unfold numbers_of. change (concat (map ?f (map ?a ?b ++ ?c))) with (collect f (map a b ++ c)). rewrite !collect_app, Cp by reflexivity.
    rewrite (collect_nil _ (line_of points)) by reflexivity. rewrite (collect_nil _ _ (enumerate holes)) by reflexivity. rewrite (collect_nil _ _ (enumerate cps)) by reflexivity. rewrite collect_concat.
    destruct cp; cbn [app]; f_equal; apply map_ext; intros label; unfold label_marks, numbers_for; rewrite !collect_app;
      (assert (Nm : forall l, collect (fun m => match m with Number i a => [(i, a)] | _ => [] end) (map number_at (enumerate l)) = numbered l) by (intros l; rewrite (collect_one _ number_at (fun q => q)) by (intros [i a]; reflexivity); rewrite map_id; reflexivity));
      (assert (Nf : collect (fun m => match m with Number i a => [(i, a)] | _ => [] end) (map (facet_number points) (enumerate facets)) = numbered (map (fun e => midpoint (fst e) (snd e)) (edges points facets))) by
        (rewrite (collect_one _ (facet_number points) (fun q => (fst q, midpoint (nth (fst (snd q)) points (0, 0)) (nth (snd (snd q)) points (0, 0))))) by reflexivity; unfold enumerate; rewrite (map_combine_r (fun f => midpoint (nth (fst f) points (0, 0)) (nth (snd f) points (0, 0)))); unfold numbered, edges; rewrite !map_length, map_map; reflexivity));
      repeat match goal with |- context [?x =? ?s] => is_var x; destruct (String.eqb_spec x s) as [->|] end; try discriminate; cbn [String.eqb Ascii.eqb Bool.eqb]; rewrite ?Nm, ?Nf; cbn [collect map concat app]; rewrite ?app_nil_r; reflexivity.
  - unfold labels_of. change (concat (map ?f (map ?a ?b ++ ?c))) with (collect f (map a b ++ c)). rewrite !collect_app, Cp by reflexivity. rewrite (collect_none _ (label_marks points facets holes cps)) by (intros x; apply label_only; reflexivity).
    rewrite (labels_at (line_of points) "Points & Facets") by (intros [[|k] f]; reflexivity). rewrite (labels_at _ "Holes" holes) by (intros [[|k] f]; reflexivity). rewrite (labels_at _ "Control Points" cps) by (intros [[|k] f]; reflexivity).
    rewrite app_nil_r. reflexivity.
Qed.
