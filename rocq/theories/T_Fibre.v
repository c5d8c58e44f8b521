(** Theorems about the export of fibre sections: C67. *)
From Coquelicot Require Import Coquelicot.
From Coq Require Import Reals String Ascii List Bool Arith ZArith Lra Lia.
From Verif Require Import Base S_Integral M_Fea S_Fem S_Section M_Section P_Section M_Init S_Init P_Init S_Warp P_Warp P_Warp2 P_Warp9 M_Solver S_Solver P_Solver P_Plastic
  M_Fibre S_Fibre P_Fibre P_Fibre2 T_Fea T_Section T_Init T_Warp T_Solver.
Import ListNotations.
Local Open Scope R_scope.

(** ** One cell for each element, in order, with its area, its centroid and the name of its material. *)
Lemma cells_of spsolve k m mats cells : fibre_cells spsolve k (Some m) mats = Ok cells -> exists s omega, section_init (Some m) mats = Ok s /\ cells = map (fun e => new_cell e omega) (s_els s) /\
  match k with
  | Cell3DOS => exists u, omega = Some u /\ solve_direct_lagrange (length (s_nodes s)) spsolve (fst (assemble_torsion (length (s_nodes s)) (s_tris s))) (snd (assemble_torsion (length (s_nodes s)) (s_tris s))) = Ok u
  | _ => omega = None
  end.
Proof.
  unfold fibre_cells. destruct (section_init (Some m) mats) as [s|] eqn:E; cbn [bind]; [|discriminate]. destruct k; cbn [bind].
  - intros H. injection H as <-. exists s, None. auto.
  - intros H. injection H as <-. exists s, None. auto.
  - destruct (assemble_torsion _ _) as [K f] eqn:A. cbn [fst snd]. destruct (solve_direct_lagrange _ _ _ _) as [u|] eqn:S; cbn [bind]; [|discriminate]. intros H. injection H as <-. exists s, (Some u). rewrite A. eauto 10.
Qed.
Lemma els_valid m mats s e : section_init (Some m) mats = Ok s -> mesher_mesh m -> In e (s_els s) -> valid_el (e_tri e).
Proof. intros H M I. apply (init_mesh_on m mats s H M). apply in_map, I. Qed.
Lemma Forall2_cells (P : element -> cell -> Prop) omega l : (forall e, In e l -> P e (new_cell e omega)) -> Forall2 P l (map (fun e => new_cell e omega) l).
Proof. induction l as [|e l IH]; intros H; constructor; [apply H; left; reflexivity|apply IH; intros x I; apply H; right; exact I]. Qed.
Theorem C67_cells spsolve k m mats cells : mesher_mesh m -> fibre_cells spsolve k (Some m) mats = Ok cells ->
  exists s, section_init (Some m) mats = Ok s /\ length (s_els s) = length (rm_triangles m) /\
  Forall2 (fun e c => lumps (e_tri e) c /\ c_tag c = (Z.of_nat (e_id e) + 1)%Z /\ c_material c = dashed (mo_name (e_mat e))) (s_els s) cells.
Proof.
  intros M H. apply cells_of in H as (s & omega & E & -> & _). exists s. split; [exact E|]. split.
  - destruct (init_ok _ _ _ E) as (m' & Em & _ & _ & _ & _ & Els & _). injection Em as <-. rewrite Els. apply build_length.
  - apply Forall2_cells. intros e I. split; [apply cell_lumps, (els_valid m mats s e E M I)|]. unfold new_cell. destruct omega; split; reflexivity.
Qed.
(** The fibres together have the area and the first moments of area of the section, and not more than its second moments. *)
Theorem C67_totals spsolve k m mats cells : mesher_mesh m -> fibre_cells spsolve k (Some m) mats = Ok cells ->
  exists s, section_init (Some m) mats = Ok s /\ let whole := mesh_int (fun _ => 1) in
  sumf c_area cells = whole (fun _ _ => 1) (s_tris s) /\ sumf (fun c => c_area c * c_y c) cells = whole (fun x _ => x) (s_tris s) /\ sumf (fun c => c_area c * c_z c) cells = whole (fun _ y => y) (s_tris s) /\
  sumf (fun c => c_area c * c_y c ^ 2) cells <= whole (fun x _ => x ^ 2) (s_tris s) /\ sumf (fun c => c_area c * c_z c ^ 2) cells <= whole (fun _ y => y ^ 2) (s_tris s).
Proof.
  intros M H. apply cells_of in H as (s & omega & E & -> & _). exists s. split; [exact E|]. cbv zeta. unfold mesh_int, s_tris.
  assert (F : Forall (fun e => valid_el (e_tri e)) (s_els s)) by (apply Forall_forall; intros e I; apply (els_valid m mats s e E M I)). clear E. unfold sumf. induction F as [|e l V F IH]; [cbn; lra|].
  cbn [map]. destruct IH as (I1 & I2 & I3 & I4 & I5). change Rsum with (fold_right Rplus 0) in *. cbn [fold_right]. rewrite <- I1, <- I2, <- I3. destruct (cell_lumps e omega V) as ((A & X & Y) & PX & PY). rewrite <- A, <- X, <- Y.
  repeat match goal with |- _ /\ _ => split end; try lra; [apply Rplus_le_compat; [|exact I4]|apply Rplus_le_compat; [|exact I5]]; rewrite PX || rewrite PY.
  - rewrite Rmult_1_l, A. unfold el_int. rewrite (tri_int_ext _ _ _ (fun _ _ => 1) (quad 1 0 0 0 0 0)), (tri_int_ext _ _ _ (fun x _ => x ^ 2) (quad 0 0 0 1 0 0)) by (intros; unfold quad; ring). rewrite !tri_int_quad.
    destruct V as [_ O]. rewrite Rabs_pos_eq by lra. unfold el_point. cbn [fst snd]. set (a := fst (corner_a (e_tri e))). set (b := fst (corner_b (e_tri e))). set (c := fst (corner_c (e_tri e))).
    apply Rminus_le. replace (_ - _) with (- (orient (corner_a (e_tri e)) (corner_b (e_tri e)) (corner_c (e_tri e)) / 72 * ((a - b) ^ 2 + (b - c) ^ 2 + (a - c) ^ 2))) by field.
    apply Ropp_le_cancel. rewrite Ropp_0, Ropp_involutive. apply Rmult_le_pos; [lra|]. pose proof (pow2_ge_0 (a - b)). pose proof (pow2_ge_0 (b - c)). pose proof (pow2_ge_0 (a - c)). lra.
  - rewrite Rmult_1_l, A. unfold el_int. rewrite (tri_int_ext _ _ _ (fun _ _ => 1) (quad 1 0 0 0 0 0)), (tri_int_ext _ _ _ (fun _ y => y ^ 2) (quad 0 0 0 0 0 1)) by (intros; unfold quad; ring). rewrite !tri_int_quad.
    destruct V as [_ O]. rewrite Rabs_pos_eq by lra. unfold el_point. cbn [fst snd]. set (a := snd (corner_a (e_tri e))). set (b := snd (corner_b (e_tri e))). set (c := snd (corner_c (e_tri e))).
    apply Rminus_le. replace (_ - _) with (- (orient (corner_a (e_tri e)) (corner_b (e_tri e)) (corner_c (e_tri e)) / 72 * ((a - b) ^ 2 + (b - c) ^ 2 + (a - c) ^ 2))) by field.
    apply Ropp_le_cancel. rewrite Ropp_0, Ropp_involutive. apply Rmult_le_pos; [lra|]. pose proof (pow2_ge_0 (a - b)). pose proof (pow2_ge_0 (b - c)). pose proof (pow2_ge_0 (a - c)). lra.
Qed.
(** For 3DOS, the cells have the value and the gradient of the warping function at the centroids of the elements; otherwise zeros. *)
Theorem C67_warping spsolve k m mats cells : mesher_mesh m -> fibre_cells spsolve k (Some m) mats = Ok cells ->
  exists s, section_init (Some m) mats = Ok s /\
  (k = Cell3DOS -> exists u, solve_direct_lagrange (length (s_nodes s)) spsolve (fst (assemble_torsion (length (s_nodes s)) (s_tris s))) (snd (assemble_torsion (length (s_nodes s)) (s_tris s))) = Ok u /\
     Forall2 (fun e c => warps (e_tri e) u c) (s_els s) cells) /\
  (k <> Cell3DOS -> Forall (fun c => c_omega c = 0 /\ c_py c = 0 /\ c_pz c = 0) cells).
Proof.
  intros M H. apply cells_of in H as (s & omega & E & -> & W). exists s. split; [exact E|]. split.
  - intros ->. destruct W as (u & -> & S). exists u. split; [exact S|]. apply Forall2_cells. intros e I. apply cell_warps, (els_valid m mats s e E M I).
  - intros N. assert (omega = None) as -> by (destruct k; [exact W|exact W|contradiction]). apply Forall_map, Forall_forall. intros e _. repeat split.
Qed.
(** With an exact solver, on a connected section, the text can always be made, and that function solves the torsion problem for a rotation
    about the origin of the coordinates (the weak form, with every finite element function v), with weighted mean zero. *)
Theorem C67_warping_exact spsolve m mats s : mesher_mesh m -> section_init (Some m) mats = Ok s -> let n := length (s_nodes s) in
  s_tris s <> [] -> pos_moduli (s_tris s) -> connected (s_tris s) -> all_used n (s_tris s) -> exact_direct n spsolve ->
  exists cells u, fibre_cells spsolve Cell3DOS (Some m) mats = Ok cells /\ Forall2 (fun e c => warps (e_tri e) u c) (s_els s) cells /\ E_int (val u) (s_tris s) = 0 /\
    forall v, E_int (fun el a b => ddx u el a b * ddx v el a b + ddy u el a b * ddy v el a b) (s_tris s) = E_int (fun el a b => ddx v el a b * loc_y el a b - ddy v el a b * loc_x el a b) (s_tris s).
Proof.
  intros M E n NE P C U X. pose proof (init_mesh_on m mats s E M) as Hm. fold n in Hm.
  destruct (C19_stiffness n _ _ _ Hm P) as (_ & _ & _ & _ & F0). destruct (C45_multiplier n _ _ _ spsolve (snd (assemble_torsion n (s_tris s))) Hm NE P C U X) as [_ T]. specialize (T F0). cbv zeta in T. destruct T as [_ (u & S & So)].
  exists (map (fun e => new_cell e (Some u)) (s_els s)), u. split.
  - unfold fibre_cells. rewrite E. cbn [bind]. fold n. destruct (assemble_torsion n (s_tris s)) as [K f]. cbn [fst snd] in S. rewrite S. reflexivity.
  - split; [apply Forall2_cells; intros e I; apply cell_warps, (els_valid m mats s e E M I)|]. destruct (weak n _ _ _ Hm _ _ _ So) as [W Z]. rewrite (Mn_int n _ _ _ Hm) in Z. split; [exact Z|]. intros v.
    specialize (W v). rewrite Rmult_0_l, Rplus_0_r, (L_form n _ _ _ Hm), (B_int n _ _ _ Hm), (L_int n _ _ _ Hm) in W. exact W.
Qed.
(** The tags of the cells are different from each other and from that of the section, also as text. *)
Theorem C67_tags spsolve k m mats cells main : mesher_mesh m -> fibre_cells spsolve k (Some m) mats = Ok cells ->
  NoDup (str_int main :: map (fun c => str_int (c_tag c)) (map (set_tag main) cells)).
Proof.
  intros M H. destruct M as [L _]. apply cells_of in H as (s & omega & E & -> & _). rewrite !map_map.
  assert (I : forall e, c_tag (set_tag main (new_cell e omega)) = (Z.of_nat (e_id e) + 1 + main)%Z) by (intros e; unfold new_cell; destruct omega; reflexivity).
  assert (N : NoDup (map e_id (s_els s))).
  { apply NoDup_nth_error. intros i j Hi Q. rewrite !nth_error_map in Q. rewrite map_length in Hi. apply nth_error_Some in Hi. destruct (nth_error (s_els s) i) as [e|] eqn:Ei; [|contradiction]. destruct (nth_error (s_els s) j) as [e'|] eqn:Ej; [|discriminate Q]. cbn in Q. injection Q as Q.
    destruct (el_material m mats s i e E L Ei) as [Ki _]. destruct (el_material m mats s j e' E L Ej) as [Kj _]. congruence. }
  constructor.
  - rewrite in_map_iff. intros (e & Q & _). rewrite I in Q. apply str_int_inj in Q. lia.
  - clear E. induction (s_els s) as [|e l IH]; [constructor|]. cbn [map] in *. inversion N as [|? ? Nin N']; subst. constructor; [|apply IH, N'].
    rewrite in_map_iff. intros (e' & Q & Il). rewrite !I in Q. apply str_int_inj in Q. apply Nin. apply in_map_iff. exists e'. split; [lia|exact Il].
Qed.

(** ** The text: notes, the command that lists the tags, an empty line, the commands of the cells. *)
Theorem C67_text fmt spsolve obj main type width save text saved : to_fibre_section fmt spsolve obj main type None width save = Ok (text, saved) ->
  exists mesh mats k fibre cells command, (obj = FromGeometry mesh mats \/ obj = FromSection mesh mats) /\ class_of type = Ok (k, fibre) /\ fibre_cells spsolve k mesh mats = Ok cells /\
    text = (fibre_header ++ command ++ newline ++ newline ++ block fmt k (map (set_tag main) cells))%string /\
    listing width ("section " ++ fibre ++ " " ++ str_int main ++ " ") (map (set_tag main) cells) command /\ saved = option_map (fun path => (path, text)) save.
Proof.
  unfold to_fibre_section. destruct obj as [mesh mats|mesh mats|]; cbn [bind]; [| |discriminate].
  all: destruct (class_of type) as [[k fibre]|] eqn:C; cbn [bind]; [|discriminate]; destruct (fibre_cells spsolve k mesh mats) as [cells|] eqn:F; cbn [bind]; [|discriminate]; intros H; injection H as <- <-.
  all: exists mesh, mats, k, fibre, cells; unfold apply_mapping, fibre_text.
  all: destruct (wrap_all width ("section " ++ fibre ++ " " ++ str_int main ++ " ") fibre_header (map (set_tag main) cells) [] [] ("section " ++ fibre ++ " " ++ str_int main ++ " ")%string) as (lines & last & W & J & Fi & L);
    [cbn [joined fold_right map]; rewrite app_nil_s; reflexivity|right; left; reflexivity|constructor|].
  all: cbn [map] in W; change (joined []) with EmptyString in W; rewrite app_nil_s in W; rewrite W; exists (joined (map (fun l => (l ++ cont)%string) lines) ++ last)%string.
  all: split; [auto|]; split; [reflexivity|]; split; [exact F|]; split; [rewrite block_export, !app_assoc_s; reflexivity|]; split; [|reflexivity]; exists lines, last; auto.
Qed.
(** With a dictionary: the names of the materials are replaced by their tags, if no name in it is part of another word. *)
Theorem C67_mapping fmt spsolve obj main type width save l text saved : to_fibre_section fmt spsolve obj main type (Some l) width save = Ok (text, saved) ->
  exists text0 command k cells, to_fibre_section fmt spsolve obj main type None width None = Ok (text0, None) /\
    text0 = (fibre_header ++ command ++ newline ++ newline ++ block fmt k cells)%string /\
    (applicable fmt k (fibre_header ++ command) cells l ->
     text = (fibre_header ++ command ++ newline ++ newline ++ block fmt k (map (fun c => with_material c (tagged l (c_material c))) cells))%string) /\
    saved = option_map (fun path => (path, text)) save.
Proof.
  intros H. assert (exists text0, to_fibre_section fmt spsolve obj main type None width None = Ok (text0, None) /\ text = apply_mapping (Some l) text0 /\ saved = option_map (fun path => (path, text)) save) as (text0 & H0 & -> & ->).
  { revert H. unfold to_fibre_section. destruct obj as [mesh mats|mesh mats|]; cbn [bind]; [| |discriminate]; (destruct (class_of type) as [[k fibre]|]; cbn [bind]; [|discriminate]); (destruct (fibre_cells spsolve k mesh mats) as [cells|]; cbn [bind]; [|discriminate]);
      intros H; injection H as <- <-; eexists; (split; [reflexivity|]); split; reflexivity. }
  destruct (C67_text _ _ _ _ _ _ _ _ _ H0) as (mesh & mats & k & fibre & cells & command & _ & _ & _ & E & _ & _). exists text0, command, k, (map (set_tag main) cells). split; [exact H0|]. split; [exact E|]. split; [|reflexivity].
  intros A. rewrite E. rewrite <- app_assoc_s. rewrite mapping_all by exact A. rewrite app_assoc_s. reflexivity.
Qed.
(** If a name is part of another one, the wrong text is replaced. *)
Theorem C67_mapping_refuted : exists l w, In w (map (fun p => dashed (fst p)) l) /\ tagged l w = "2"%string /\ apply_mapping (Some l) w = "1-high"%string.
Proof. exists [("steel", 1%Z); ("steel high", 2%Z)]%string, "steel-high"%string. split; [right; left; reflexivity|]. split; reflexivity. Qed.
(** A continued line is always longer than the width that was asked for. *)
Theorem C67_width_refuted fmt spsolve m mats text saved : rm_triangles m <> [] -> to_fibre_section fmt spsolve (FromGeometry (Some m) mats) 1 "3DOS" None 20 None = Ok (text, saved) ->
  exists line rest, text = (fibre_header ++ line ++ newline ++ rest)%string /\ (20 < String.length line)%nat.
Proof.
  intros NE H. destruct (C67_text _ _ _ _ _ _ _ _ _ H) as (mesh & mats' & k & fibre & cells & command & [Q|Q] & C & F & E & (lines & last & Ec & J & L & Fi) & _); [|discriminate Q]. injection Q as <- <-.
  cbn in C. injection C as <- <-. apply cells_of in F as (s & omega & Es & -> & _).
  assert (NE' : s_els s <> []). { destruct (init_ok _ _ _ Es) as (m' & Em & _ & _ & _ & _ & Els & _). injection Em as <-. intros Z. pose proof (build_length (rm_vertices m) mats (rm_attributes m) (rm_triangles m) 0) as B. rewrite <- Els, Z in B. destruct (rm_triangles m); [contradiction|discriminate B]. }
  destruct lines as [|line lines].
  - exfalso. destruct (s_els s) as [|e es]; [contradiction|]. apply (f_equal String.length) in J. rewrite !app_length_s in J. cbn [map] in J. unfold joined in J. cbn [fold_right] in J. rewrite app_length_s in J. unfold tag_word in J. rewrite app_length_s in J.
    change (String.length "") with 0%nat in J. change (String.length " ") with 1%nat in J. change (String.length (str_int 1)) with 1%nat in J. change (String.length "section ") with 8%nat in J. change (String.length "Fibre3DOS") with 9%nat in J.
    destruct Fi as [Fi|[-> | ->]]; [lia|rewrite !app_length_s in J; change (String.length " ") with 1%nat in J; change (String.length (str_int 1)) with 1%nat in J; change (String.length "section ") with 8%nat in J; change (String.length "Fibre3DOS") with 9%nat in J; lia|change (String.length "") with 0%nat in J; lia].
  - inversion L as [|? ? [W _] _]; subst. exists (line ++ backslash)%string, (joined (map (fun l => (l ++ cont)%string) lines) ++ last ++ newline ++ newline ++ block fmt Cell3DOS (map (set_tag 1) (map (fun e => new_cell e omega) (s_els s))))%string.
    split; [|rewrite app_length_s; lia]. cbn [map]. unfold joined at 1. cbn [fold_right]. fold (joined (map (fun l => (l ++ cont)%string) lines)). unfold cont at 1. rewrite !app_assoc_s. reflexivity.
Qed.
(** ** Exceptions *)
(** The spellings of the three analysis types, in any case. *)
Definition spell_2d : list string := ["2D"; "2d"]%string.
Definition spell_3d : list string := ["3D"; "3d"]%string.
Definition spell_3dos : list string := ["3DOS"; "3DOs"; "3DoS"; "3Dos"; "3dOS"; "3dOs"; "3doS"; "3dos"]%string.
Lemma upper_inv c u : In u ["2"; "3"; "D"; "O"; "S"]%char -> upper_char c = u ->
  c = u \/ u = "D"%char /\ c = "d"%char \/ u = "O"%char /\ c = "o"%char \/ u = "S"%char /\ c = "s"%char.
Proof. intros I H. cbn [In] in I. destruct I as [<-|[<-|[<-|[<-|[<-|[]]]]]]; destruct c as [[] [] [] [] [] [] [] []]; cbv in H; try discriminate H; auto 6. Qed.
Ltac spelled := repeat match goal with
  | H : upper ?s = String _ _ |- _ => destruct s as [|? s]; [discriminate H|]; cbn [upper] in H; injection H; clear H; intros H ?
  | H : upper ?s = EmptyString |- _ => destruct s; [clear H|discriminate H]
  | H : upper_char ?c = ?u |- _ => apply upper_inv in H; [|cbn; auto 6]; destruct H as [->|[[E ->]|[[E ->]|[E ->]]]]; try discriminate E; try clear E
  end.
Lemma upper_types t : (upper t = "2D"%string <-> In t spell_2d) /\ (upper t = "3D"%string <-> In t spell_3d) /\ (upper t = "3DOS"%string <-> In t spell_3dos).
Proof.
  repeat split; intros H.
  all: try (spelled; cbn; auto 10; fail).
  all: cbn in H; repeat destruct H as [<-|H]; try reflexivity; destruct H.
Qed.
Theorem C67_errors fmt spsolve main type mapping width save :
  to_fibre_section fmt spsolve FromOther main type mapping width save = Err TypeError /\
  (forall obj, obj <> FromOther -> ~ In type (spell_2d ++ spell_3d ++ spell_3dos) -> to_fibre_section fmt spsolve obj main type mapping width save = Err ValueError) /\
  (forall mats, In type (spell_2d ++ spell_3d ++ spell_3dos) -> to_fibre_section fmt spsolve (FromGeometry None mats) main type mapping width save = Err ValueError) /\
  (forall m mats s, In type (spell_2d ++ spell_3d) -> section_init (Some m) mats = Ok s -> exists r, to_fibre_section fmt spsolve (FromGeometry (Some m) mats) main type mapping width save = Ok r).
Proof.
  destruct (upper_types type) as (U2 & U3 & U4).
  split; [reflexivity|]. split; [|split].
  - intros obj N T. assert (C : class_of type = Err ValueError). { rewrite !in_app_iff in T. unfold class_of. destruct (String.eqb_spec (upper type) "2D") as [E|_]; [exfalso; apply T; left; apply U2, E|]. destruct (String.eqb_spec (upper type) "3D") as [E|_]; [exfalso; apply T; right; left; apply U3, E|]. destruct (String.eqb_spec (upper type) "3DOS") as [E|_]; [exfalso; apply T; right; right; apply U4, E|]. reflexivity. }
    unfold to_fibre_section. rewrite C. destruct obj; [reflexivity|reflexivity|contradiction].
  - intros mats T. rewrite !in_app_iff, <- U2, <- U3, <- U4 in T. unfold to_fibre_section, class_of. cbn [bind]. destruct T as [->|[->| ->]]; reflexivity.
  - intros m mats s T E. rewrite in_app_iff, <- U2, <- U3 in T. unfold to_fibre_section, class_of, fibre_cells. cbn [bind]. destruct T as [-> | ->]; cbn [String.eqb Ascii.eqb Bool.eqb bind]; rewrite E; cbn [bind]; eauto.
Qed.
(** The kind of cells: two-dimensional, three-dimensional or three-dimensional with warping, by the type and not by its case. *)
Theorem C67_types type k name : class_of type = Ok (k, name) <->
  In type spell_2d /\ k = Cell2D /\ name = "Fibre2D"%string \/ In type spell_3d /\ k = Cell3D /\ name = "Fibre3D"%string \/ In type spell_3dos /\ k = Cell3DOS /\ name = "Fibre3DOS"%string.
Proof.
  destruct (upper_types type) as (U2 & U3 & U4). rewrite <- U2, <- U3, <- U4. unfold class_of.
  destruct (String.eqb_spec (upper type) "2D") as [-> | N2]; [|destruct (String.eqb_spec (upper type) "3D") as [-> | N3]; [|destruct (String.eqb_spec (upper type) "3DOS") as [-> | N4]]].
  all: split; intros H; [try discriminate H; try (injection H as <- <-; auto)|].
  all: destruct H as [(E & K)|[(E & K)|(E & K)]]; try discriminate E; try contradiction; destruct K as (-> & ->); reflexivity.
Qed.
Example C67_types_met : class_of "3dos" = Ok (Cell3DOS, "Fibre3DOS"%string) /\ class_of "2d" = class_of "2D" /\ class_of "4D" = Err ValueError. Proof. repeat split. Qed.

(** ** A section of two elements of different materials, in the mesh [ex_raw] of T_Init *)
Definition ex_mild (ref : nat) : mat_obj := mkMatObj ref "mild  steel" ex_mat "grey".
Definition ex_fmt (_ : R) : string := "0.5"%string.
Definition ex_cells (omega : option (nat -> R)) : list cell :=
  map (fun e => new_cell e omega) (build_from (rm_vertices ex_raw) [ex_mild 1; ex_timber 2] (rm_attributes ex_raw) 0 (rm_triangles ex_raw)).
Example C67_cells_met : mesher_mesh ex_raw /\ forall spsolve, fibre_cells spsolve Cell2D (Some ex_raw) [ex_mild 1; ex_timber 2] = Ok (ex_cells None).
Proof. split; [exact ex_raw_ok|]. intros spsolve. reflexivity. Qed.
Example C67_warping_met : exists s, section_init (Some ex_raw) [ex_mild 1; ex_timber 2] = Ok s /\
  s_tris s <> [] /\ pos_moduli (s_tris s) /\ connected (s_tris s) /\ all_used (length (s_nodes s)) (s_tris s) /\ exists spsolve, exact_direct (length (s_nodes s)) spsolve.
Proof.
  eexists. split; [reflexivity|]. split; [discriminate|]. split; [|split; [|split]].
  - intros el [<-|[<-|[]]]; unfold ex_mat, ex_mat2; cbn [e_tri build_element el_mat mo_val m_E nth_error ex_mild ex_timber]; cbn; lra.
  - intros el el' I I'. exists []. split; [intros e []|]. exists 0%nat.
    assert (Z : forall a, In a (map e_tri (build_from (rm_vertices ex_raw) [ex_mild 1; ex_timber 2] (rm_attributes ex_raw) 0 (rm_triangles ex_raw))) -> In 0%nat (ids_list (el_ids a))) by (intros a [<-|[<-|[]]]; left; reflexivity).
    split; apply Z; assumption.
  - intros i Hi. change (i < 9)%nat in Hi. set (a := build_element (rm_vertices ex_raw) [ex_mild 1; ex_timber 2] [0; 1]%nat 0 (mkConn 0 1 2 5 6 4)). set (b := build_element (rm_vertices ex_raw) [ex_mild 1; ex_timber 2] [0; 1]%nat 1 (mkConn 0 2 3 7 8 6)).
    assert (D : In i [0;1;2;4;5;6]%nat \/ In i [0;2;3;6;7;8]%nat) by (cbn [In]; lia).
    destruct D as [D|D]; [exists (e_tri a)|exists (e_tri b)]; (split; [cbn; auto|]); cbn [In] in D |- *; cbn; lia.
  - apply ex_exact_direct.
Qed.
Example C67_text_met : exists spsolve saved, to_fibre_section ex_fmt spsolve (FromGeometry (Some ex_raw) [ex_mild 1; ex_timber 2]) 10 "2d" None 20 (Some "fibres.sp"%string) =
  Ok (fibre_header ++ "section Fibre2D 10 11 \" ++ newline ++ "12 " ++ newline ++ newline ++ "section Cell2D 11 0.5 mild-steel 0.5" ++ newline ++ "section Cell2D 12 0.5 timber 0.5" ++ newline ++ newline, saved)%string.
Proof. exists (fun _ _ _ => 0). eexists. reflexivity. Qed.
Fixpoint occursb (w s : string) : bool := String.prefix w s || match s with EmptyString => false | String _ r => occursb w r end.
Lemma occursb_ok w s : occursb w s = false -> ~ occurs w s.
Proof.
  intros H (a & b & ->). revert H. induction a as [|c a IH].
  - change ("" ++ w ++ b)%string with (w ++ b)%string. assert (P : String.prefix w (w ++ b) = true) by (induction w as [|c w IH]; [destruct b; reflexivity|cbn; destruct (ascii_dec c c); [exact IH|contradiction]]).
    destruct (w ++ b)%string; cbn [occursb]; rewrite P; discriminate.
  - change (String c a ++ w ++ b)%string with (String c (a ++ w ++ b)). cbn [occursb]. intros H. apply orb_false_elim in H as [_ H]. auto.
Qed.
Example C67_mapping_met : applicable ex_fmt Cell2D (fibre_header ++ "section Fibre2D 10 11 12 ") (map (set_tag 10) (ex_cells None)) [("mild steel", 3%Z); ("timber", 4%Z)]%string.
Proof.
  intros name tag I.
  assert (N : name = "mild steel"%string \/ name = "timber"%string) by (destruct I as [E|[E|[]]]; injection E as <- _; auto). clear I.
  destruct N as [-> | ->]; (split; [discriminate|]); (split; [apply occursb_ok; reflexivity|]); (split; [|intros n' t' [E|[E|[]]]; injection E as <- <-; apply occursb_ok; reflexivity]);
    intros c Ic; unfold ex_cells in Ic; cbn [build_from rm_triangles ex_raw rm_vertices rm_attributes map In] in Ic; destruct Ic as [<-|[<-|[]]]; (split; [repeat constructor; apply occursb_ok; reflexivity|]); (left; reflexivity) || (right; apply occursb_ok; reflexivity).
Qed.
Example C67_mapped : exists spsolve saved, to_fibre_section ex_fmt spsolve (FromGeometry (Some ex_raw) [ex_mild 1; ex_timber 2]) 10 "2d" (Some [("mild steel", 3%Z); ("timber", 4%Z)]%string) 100 None =
  Ok (fibre_header ++ "section Fibre2D 10 11 12 " ++ newline ++ newline ++ "section Cell2D 11 0.5 3 0.5" ++ newline ++ "section Cell2D 12 0.5 4 0.5" ++ newline ++ newline, saved)%string.
Proof. exists (fun _ _ _ => 0). eexists. reflexivity. Qed.

Print Assumptions C67_cells.
Print Assumptions C67_totals.
Print Assumptions C67_warping.
Print Assumptions C67_warping_exact.
Print Assumptions C67_tags.
Print Assumptions C67_text.
Print Assumptions C67_mapping.
Print Assumptions C67_mapping_refuted.
Print Assumptions C67_width_refuted.
Print Assumptions C67_errors. Print Assumptions C67_types.
