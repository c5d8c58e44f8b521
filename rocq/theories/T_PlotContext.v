(** Theorems: what the plotting methods do with figures, files and windows: C104. *)
From Coq Require Import String ZArith List Bool Lia.
From Verif Require Import Base M_PlotContext.
Import ListNotations.
Local Open Scope string_scope.
Local Open Scope list_scope.

(** ** Specification *)
(** Calls that concern the figure or the screen and not only the axes *)
Definition on_figure (e : event) : bool := match e with ESubplots | ESave _ | EClose | EShow | EPyplotDraw | EPause => true | _ => false end.
Definition leaves_figure (l : list event) : Prop := forall e, In e l -> on_figure e = false.
(** The drawing calls, with their axes *)
Definition drawn (l : list event) : list (axes * nat) := concat (map (fun e => match e with EDrawn a w => [(a, w)] | _ => [] end) l).
(** The title that axes have after the calls *)
Fixpoint title_of (a : axes) (l : list event) (t : option string) : option string :=
  match l with
  | [] => t
  | ETitle b s :: r => title_of a r (if match a, b with Caller i, Caller j => Nat.eqb i j | Fresh p, Fresh q => if list_eq_dec Z.eq_dec p q then true else false | _, _ => false end then Some s else t)
  | _ :: r => title_of a r t
  end.
(** Whether pyplot is interactive after the calls *)
Definition mode_after (m : bool) (l : list event) : bool := fold_left (fun m e => match e with EIoff => false | EIon => true | _ => m end) l m.
(** How a plot of its own figure ends: it is saved and closed, or shown, or left *)
Definition ending (o : options) : list event :=
  if string_dec (o_filename o) "" then (if o_render o then (if o_pause o then [EShow] else [EPyplotDraw; EPause]) else []) else [ESave (o_filename o); EClose].
(** A drawing that raises nothing *)
Definition fine (d : drawing) : Prop := snd d = None.

(** ** Lemmas *)
Lemma named_dec o : negb (o_filename o =? "") = if string_dec (o_filename o) "" then false else true.
Proof. destruct (string_dec (o_filename o) "") as [->|N]; [reflexivity|]. apply String.eqb_neq in N. rewrite N. reflexivity. Qed.
Lemma leaves_app l r : leaves_figure l -> leaves_figure r -> leaves_figure (l ++ r).
Proof. intros A B e He. apply in_app_or in He. destruct He; auto. Qed.
Lemma leaves_then t1 t2 : leaves_figure (fst t1) -> leaves_figure (fst t2) -> leaves_figure (fst (then_do t1 t2)).
Proof. intros A B. unfold then_do. destruct (snd t1); [exact A|apply leaves_app; assumption]. Qed.
Lemma leaves_draw d t : leaves_figure (fst (draw d t)).
Proof. destruct t as [a|i]; cbn [draw fst]; [|intros e []]. intros e He. apply in_map_iff in He. destruct He as [w [<- _]]. reflexivity. Qed.
Lemma leaves_finish t s : leaves_figure (fst (finish_axes t s)).
Proof. destruct t; intros e He; cbn in He; [destruct He as [<-|[<-|[<-|[]]]]; reflexivity|destruct He]. Qed.
Lemma leaves_given o title body a : o_ax o = Some a -> leaves_figure (fst (body (One a))) -> leaves_figure (fst (plotting_context o title body)).
Proof.
  intros E B. unfold plotting_context. rewrite E. cbv zeta. apply leaves_then; [|apply leaves_then; [exact B|apply leaves_finish]].
  match goal with |- context [if ?b then [] else [EIoff]] => destruct b end; intros x He; cbn in He; [destruct He|destruct He as [<-|[]]; reflexivity].
Qed.

(** ** Theorems *)

(** With axes of the caller no figure is made, saved, closed or shown, whatever the other arguments and whether or not something raises. *)
Theorem C104_given_axes o a title before mesh after : o_ax o = Some a ->
  leaves_figure (fst (plot_alone o title mesh)) /\ leaves_figure (fst (plot_on_mesh o title before mesh after)).
Proof.
  intros E. split; [apply (leaves_given o title _ a E), leaves_draw|]. apply (leaves_given o title _ a E).
  apply leaves_then; [apply leaves_draw|]. apply leaves_then; [|apply leaves_draw]. apply (leaves_given _ _ _ a); [reflexivity|apply leaves_draw].
Qed.

(** Without them one figure is made; the drawing calls of the method and of the mesh below it come in order, all on the axes selected; these get the title of
    the method; only then the figure is saved and closed (if there is a file name, and then never shown) or shown, once. *)
Theorem C104_own_figure o title before mesh after a : o_ax o = None -> select (o_subplots o) (o_index o) = Some (One a) -> fine before -> fine mesh -> fine after ->
  exists m work, let tr := plot_on_mesh o title before mesh after in
  tr = (m :: ESubplots :: work ++ ending o, None) /\ (m = EIoff \/ m = EIon) /\ leaves_figure work /\
  drawn (fst tr) = map (pair a) (fst before ++ fst mesh ++ fst after) /\ title_of a work None = Some title.
Proof.
  intros E S F1 F2 F3. unfold fine in *. unfold plot_on_mesh, plotting_context. rewrite E, S. cbv zeta. rewrite !named_dec.
  set (render := if if string_dec (o_filename o) "" then false else true then false else o_render o).
  unfold plot_alone, plotting_context. cbn [on_axes o_ax o_filename o_render draw]. cbv zeta. rewrite named_dec. fold render. unfold then_do. rewrite F1, F2, F3. cbn [fst snd finish_axes app].
  set (m := if negb render || o_pause o then EIoff else EIon).
  set (i := if render then [] else [EIoff]).
  exists m, (map (EDrawn a) (fst before) ++ ((i ++ map (EDrawn a) (fst mesh) ++ [ETitle a "Finite Element Mesh"; ELayout; EAspect a]) ++ map (EDrawn a) (fst after)) ++ [ETitle a title; ELayout; EAspect a]).
  assert (EE : (if if string_dec (o_filename o) "" then false else true then [ESave (o_filename o); EClose] else if render then if o_pause o then [EShow] else [EPyplotDraw; EPause] else []) = ending o).
  { unfold ending, render. destruct (string_dec (o_filename o) ""); reflexivity. }
  rewrite EE.
  assert (Li : leaves_figure i) by (unfold i; destruct render; intros e He; cbn in He; [destruct He|destruct He as [<-|[]]; reflexivity]).
  assert (Ld : forall l, leaves_figure (map (EDrawn a) l)) by (intros l e He; apply in_map_iff in He; destruct He as [w [<- _]]; reflexivity).
  assert (Lt : forall s, leaves_figure [ETitle a s; ELayout; EAspect a]) by (intros s; apply (leaves_finish (One a) s)).
  assert (Dd : forall l r, drawn (l ++ r) = drawn l ++ drawn r) by (intros l r; unfold drawn; rewrite map_app, concat_app; reflexivity).
  assert (Dm : forall l, drawn (map (EDrawn a) l) = map (pair a) l) by (intros l; induction l as [|w l IH]; [reflexivity|]; cbn; f_equal; exact IH).
  assert (Di : drawn i = []) by (unfold i; destruct render; reflexivity).
  assert (De : drawn (ending o) = []) by (unfold ending; destruct (string_dec _ _); [destruct (o_render o); [destruct (o_pause o)|]|]; reflexivity).
  split; [|split; [|split; [|split]]].
  - f_equal. f_equal. f_equal. rewrite <- !app_assoc. reflexivity.
  - unfold m. destruct (negb render || o_pause o); tauto.
  - apply leaves_app; [apply Ld|]. apply leaves_app; [|apply Lt]. apply leaves_app; [|apply Ld]. apply leaves_app; [exact Li|]. apply leaves_app; [apply Ld|apply Lt].
  - cbn [fst].
    match goal with |- drawn (m :: ESubplots :: ?l) = _ => change (drawn ([m; ESubplots] ++ l) = map (pair a) (fst before ++ fst mesh ++ fst after)) end.
    assert (D2 : drawn [m; ESubplots] = []) by (unfold m; destruct (negb render || o_pause o); reflexivity).
    rewrite Dd, D2. repeat rewrite ?Dd, ?Dm, ?Di, ?De. cbn [app]. unfold drawn. cbn [map concat app]. rewrite !map_app. fold (drawn (ending o)). rewrite ?De, ?app_nil_r, <- ?app_assoc. cbn [app]. rewrite ?app_nil_r. reflexivity.
  - assert (TA : forall l r t, title_of a (l ++ r) t = title_of a r (title_of a l t)).
    { intros l. induction l as [|e l IH]; intros r t; [reflexivity|]. destruct e; cbn [app title_of]; apply IH. }
    rewrite !TA. cbn [title_of]. destruct a as [k|p]; [rewrite Nat.eqb_refl; reflexivity|destruct (list_eq_dec Z.eq_dec p p); [reflexivity|contradiction]].
Qed.
(** The same for plot_mesh, plot_geometry and plot_mohrs_circles *)
Theorem C104_own_figure_alone o title d a : o_ax o = None -> select (o_subplots o) (o_index o) = Some (One a) -> fine d ->
  exists m, plot_alone o title d = (m :: ESubplots :: map (EDrawn a) (fst d) ++ [ETitle a title; ELayout; EAspect a] ++ ending o, None) /\ (m = EIoff \/ m = EIon).
Proof.
  intros E S F. unfold fine in F. unfold plot_alone, plotting_context. rewrite E, S. cbv zeta. rewrite !named_dec. cbn [draw]. unfold then_do. rewrite F. cbn [fst snd finish_axes app].
  eexists. split; [f_equal; f_equal; f_equal; f_equal; unfold ending; destruct (string_dec (o_filename o) ""); reflexivity|].
  destruct (_ || _); tauto.
Qed.

(** If something raises, nothing is saved, closed or shown; at most a figure was made. *)
Theorem C104_raises o title before mesh after e : snd (plot_on_mesh o title before mesh after) = Some e ->
  exists work, leaves_figure work /\ (fst (plot_on_mesh o title before mesh after) = work \/ exists m, fst (plot_on_mesh o title before mesh after) = m :: ESubplots :: work).
Proof.
  destruct (o_ax o) as [a|] eqn:E.
  { intros _. destruct (C104_given_axes o a title before mesh after E) as [_ L]. eexists. split; [exact L|left; reflexivity]. }
  unfold plot_on_mesh, plotting_context. rewrite E. cbv zeta. rewrite !named_dec.
  set (fin := (if if string_dec (o_filename o) "" then false else true then _ else _, None)).
  set (m := if _ : bool then EIoff else EIon). destruct (select (o_subplots o) (o_index o)) as [t|].
  2:{ intros _. exists []. split; [intros x []|]. right. exists m. reflexivity. }
  set (body := then_do (draw before t) _). assert (B : leaves_figure (fst body)).
  { unfold body. apply leaves_then; [apply leaves_draw|]. apply leaves_then; [|apply leaves_draw]. destruct t as [a|i]; [|intros x []]. apply (leaves_given _ _ _ a); [reflexivity|apply leaves_draw]. }
  clearbody body. unfold then_do at 1 4. cbn [fst snd]. intros H. unfold then_do in *. destruct (snd body) as [e1|] eqn:S1.
  - exists (fst body). split; [exact B|]. right. exists m. reflexivity.
  - pose proof (leaves_finish t title) as Lf. destruct (snd (finish_axes t title)) as [e2|] eqn:S2.
    + exists (fst body ++ fst (finish_axes t title)). split; [apply leaves_app; assumption|]. right. exists m. reflexivity.
    + exfalso. unfold fin in H. cbn [snd] in H. discriminate H.
Qed.

(** ** Which axes are drawn on *)
(** By default the only axes, or those at the top left; otherwise those at the index, counted from the end if it is negative; an index that is not there, or of
    two numbers for an array of one dimension, raises ValueError before anything is drawn. *)
Definition valid_index (n i : Z) : Prop := (- n <= i < n)%Z.
Definition counted (n i : Z) : Z := if Z_lt_dec i 0 then (i + n)%Z else i.
Lemma entry_spec n i : (valid_index n i /\ entry n i = Some (counted n i)) \/ (~ valid_index n i /\ entry n i = None).
Proof.
  unfold entry, valid_index, counted. destruct (Z_lt_dec i 0); destruct (Z.leb_spec 0 i); destruct (Z.ltb_spec i n); destruct (Z.leb_spec (- n) i); destruct (Z.ltb_spec i 0); cbn [andb]; try lia;
    first [left; split; [lia|reflexivity]|right; split; [lia|reflexivity]].
Qed.
Theorem C104_selection : forall n r c i j, (0 < n)%Z -> (0 < r)%Z -> (0 < c)%Z ->
  (forall k, select Single k = Some (One (Fresh []))) /\
  select (Array1 n) None = Some (One (Fresh [0%Z])) /\ select (Array2 r c) None = Some (One (Fresh [0%Z; 0%Z])) /\
  (valid_index n i -> select (Array1 n) (Some (At i)) = Some (One (Fresh [counted n i]))) /\
  (valid_index r i -> valid_index c j -> select (Array2 r c) (Some (At2 i j)) = Some (One (Fresh [counted r i; counted c j]))) /\
  (~ valid_index n i -> select (Array1 n) (Some (At i)) = None) /\ select (Array1 n) (Some (At2 i j)) = None /\
  (~ valid_index r i \/ ~ valid_index c j -> select (Array2 r c) (Some (At2 i j)) = None).
Proof.
  intros n r c i j Hn Hr Hc. cbn [select].
  assert (Z0 : forall k, (0 < k)%Z -> entry k 0 = Some 0%Z) by (intros k Hk; unfold entry; destruct (Z.ltb_spec 0 k); [reflexivity|lia]).
  split; [reflexivity|]. split; [rewrite (Z0 n Hn); reflexivity|]. split; [rewrite (Z0 r Hr), (Z0 c Hc); reflexivity|].
  destruct (entry_spec n i) as [[V1 E1]|[V1 E1]]; destruct (entry_spec r i) as [[V2 E2]|[V2 E2]]; destruct (entry_spec c j) as [[V3 E3]|[V3 E3]]; rewrite ?E1, ?E2, ?E3; cbn [option_map]; tauto.
Qed.
Theorem C104_bad_index o title before mesh after : o_ax o = None -> select (o_subplots o) (o_index o) = None ->
  snd (plot_on_mesh o title before mesh after) = Some (Raises ValueError) /\ drawn (fst (plot_on_mesh o title before mesh after)) = [].
Proof.
  intros E S. unfold plot_on_mesh, plotting_context. rewrite E, S. cbv zeta. split; [reflexivity|]. unfold then_do. cbn [fst snd]. destruct (_ || _); reflexivity.
Qed.
(** One index for an array of two dimensions selects a row: nothing can be drawn, and the call raises. *)
Theorem C104_row_index o title before mesh after r c i : o_ax o = None -> o_subplots o = Array2 r c -> o_index o = Some (At i) ->
  snd (plot_on_mesh o title before mesh after) = Some (Raises ValueError) /\ drawn (fst (plot_on_mesh o title before mesh after)) = [].
Proof.
  intros E S I. unfold plot_on_mesh, plotting_context. rewrite E, S, I. cbv zeta. cbn [select]. destruct (entry r i) as [k|]; cbn [option_map]; unfold then_do; cbn [fst snd draw app];
    (split; [reflexivity|]); destruct (_ || _); reflexivity.
Qed.

(** ** The interactive mode of pyplot *)
(** It is left switched off, except after a plot in a window of its own without pause, which leaves it on, and after a plot that is rendered on axes of the
    caller, which does not change it. *)
Theorem C104_mode o title before mesh after m : fine before -> fine mesh -> fine after -> snd (plot_on_mesh o title before mesh after) = None ->
  mode_after m (fst (plot_on_mesh o title before mesh after)) =
  if string_dec (o_filename o) "" then (if o_render o then match o_ax o with Some _ => m | None => negb (o_pause o) end else false) else false.
Proof.
  intros F1 F2 F3 H. unfold fine in *.
  assert (MA : forall l r k, mode_after k (l ++ r) = mode_after (mode_after k l) r) by (intros l r k; unfold mode_after; apply fold_left_app).
  assert (MD : forall a l k, mode_after k (map (EDrawn a) l) = k) by (intros a l; induction l as [|w l IH]; intros k; [reflexivity|exact (IH k)]).
  assert (MC : forall e l k, mode_after k (e :: l) = mode_after (match e with EIoff => false | EIon => true | _ => k end) l) by reflexivity.
  revert H. unfold plot_on_mesh, plotting_context. cbv zeta. rewrite !named_dec. destruct (o_ax o) as [a|].
  - intros _. unfold plot_alone, plotting_context. cbn [on_axes o_ax o_filename o_render draw]. cbv zeta. rewrite named_dec. unfold then_do. rewrite F1, F2, F3. cbn [fst snd finish_axes app].
    destruct (string_dec (o_filename o) ""); [destruct (o_render o)|]; repeat rewrite ?MA, ?MD; reflexivity.
  - destruct (select (o_subplots o) (o_index o)) as [[a|i]|]; [|unfold then_do; cbn [fst snd draw]; discriminate|unfold then_do; cbn [fst snd draw]; discriminate].
    intros _. unfold plot_alone, plotting_context. cbn [on_axes o_ax o_filename o_render draw]. cbv zeta. rewrite named_dec. unfold then_do. rewrite F1, F2, F3. cbn [fst snd finish_axes app].
    destruct (string_dec (o_filename o) ""); [destruct (o_render o), (o_pause o)|]; cbn [negb orb]; repeat rewrite ?MA, ?MD, ?MC; reflexivity.
Qed.

(** ** What does not hold *)
(** The documentation of filename says that the image is saved as this; with axes of the caller no file is written. *)
Theorem C104_filename_refuted : exists o title d, o_filename o = "section.png" /\ snd (plot_alone o title d) = None /\ ~ In (ESave "section.png") (fst (plot_alone o title d)).
Proof.
  exists (mkOptions (Some (Caller 0)) true "section.png" true None Single), "", ([], None). split; [reflexivity|]. split; [reflexivity|]. cbn. intros H. repeat (destruct H as [H|H]; [discriminate H|]). exact H.
Qed.

(** ** Cases *)
Example C104_saved : plot_on_mesh (mkOptions None true "a.png" true (Some (At2 1 (-1))) (Array2 2 3)) "Stress" ([1], None) ([2], None) ([3], None) =
  (let a := Fresh [1%Z; 2%Z] in [EIoff; ESubplots; EDrawn a 1; EIoff; EDrawn a 2; ETitle a "Finite Element Mesh"; ELayout; EAspect a; EDrawn a 3; ETitle a "Stress"; ELayout; EAspect a; ESave "a.png"; EClose], None).
Proof. reflexivity. Qed.
Example C104_shown : plot_alone (mkOptions None false "" true None Single) "Mesh" ([1], None) =
  ([EIon; ESubplots; EDrawn (Fresh []) 1; ETitle (Fresh []) "Mesh"; ELayout; EAspect (Fresh []); EPyplotDraw; EPause], None).
Proof. reflexivity. Qed.

Print Assumptions C104_given_axes.
Print Assumptions C104_own_figure.
Print Assumptions C104_own_figure_alone.
Print Assumptions C104_raises.
Print Assumptions C104_selection.
Print Assumptions C104_bad_index.
Print Assumptions C104_row_index.
Print Assumptions C104_mode.
Print Assumptions C104_filename_refuted.
