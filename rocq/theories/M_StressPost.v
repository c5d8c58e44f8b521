(** Model of src/sectionproperties/post/stress_post.py: StressPost.get_stress and the numbers drawn by plot_mohrs_circles. Definitions only. *)
From Coq Require Import String Reals List Bool.
From Verif Require Import Base M_Fea M_Init M_Section M_Stress.
Import ListNotations.
Local Open Scope R_scope.

(** stress_post.py 660-689: the entries of the dictionary of one material group, in the order of the code. The arrays have num_nodes
    entries (986-1015). *)
Definition stress_dict (num_nodes : nat) (r : nodal_stress * (nat -> combined)) : list (string * list R) :=
  let '(s, c) := r in
  let arr f := map f (seq 0 num_nodes) in
  [("sig_zz_n", arr (ns_zz_n s)); ("sig_zz_mxx", arr (ns_zz_mxx s)); ("sig_zz_myy", arr (ns_zz_myy s)); ("sig_zz_m11", arr (ns_zz_m11 s));
   ("sig_zz_m22", arr (ns_zz_m22 s)); ("sig_zz_m", arr (fun i => cb_zz_m (c i)));
   ("sig_zx_mzz", arr (ns_zx_mzz s)); ("sig_zy_mzz", arr (ns_zy_mzz s)); ("sig_zxy_mzz", arr (fun i => cb_zxy_mzz (c i)));
   ("sig_zx_vx", arr (ns_zx_vx s)); ("sig_zy_vx", arr (ns_zy_vx s)); ("sig_zxy_vx", arr (fun i => cb_zxy_vx (c i)));
   ("sig_zx_vy", arr (ns_zx_vy s)); ("sig_zy_vy", arr (ns_zy_vy s)); ("sig_zxy_vy", arr (fun i => cb_zxy_vy (c i)));
   ("sig_zx_v", arr (fun i => cb_zx_v (c i))); ("sig_zy_v", arr (fun i => cb_zy_v (c i))); ("sig_zxy_v", arr (fun i => cb_zxy_v (c i)));
   ("sig_zz", arr (fun i => cb_zz (c i))); ("sig_zx", arr (fun i => cb_zx (c i))); ("sig_zy", arr (fun i => cb_zy (c i)));
   ("sig_zxy", arr (fun i => cb_zxy (c i))); ("sig_11", arr (fun i => cb_11 (c i))); ("sig_33", arr (fun i => cb_33 (c i)));
   ("sig_vm", arr (fun i => cb_vm (c i)))]%string.
(** 556-691: get_stress: for each material group the name of its material and its arrays. (In the code the name is one more entry of the
    dictionary, with the key "material".) *)
Definition get_stress (num_nodes : nat) (groups : list group) (res : list (nodal_stress * (nat -> combined))) : list (string * list (string * list R)) :=
  map (fun gr => (mo_name (fst (fst gr)), stress_dict num_nodes (snd gr))) (combine groups res).

(** ** Mohr's circles *)
(** A 3 x 3 matrix, by row and column; a vector *)
Definition mat3 : Type := nat -> nat -> R.
Definition vec3 : Type := nat -> R.
Definition sum3 (f : nat -> R) : R := f 0%nat + f 1%nat + f 2%nat.
(** 793-806: the stress tensor *)
Definition stress_tensor (zz xz yz : R) : mat3 := fun i j =>
  match i, j with
  | 0%nat, 2%nat | 2%nat, 0%nat => xz
  | 1%nat, 2%nat | 2%nat, 1%nat => yz
  | 2%nat, 2%nat => zz
  | _, _ => 0
  end.
(** np.sort of three numbers *)
Definition sort3 (s : vec3) : R * R * R :=
  let a := s 0%nat in let b := s 1%nat in let c := s 2%nat in
  let '(a, b) := if Rle_dec a b then (a, b) else (b, a) in
  let '(b, c) := if Rle_dec b c then (b, c) else (c, b) in
  let '(a, b) := if Rle_dec a b then (a, b) else (b, a) in
  (a, b, c).
(** 812-818: the normal and the shear stress on the face with the normal in the direction [col]; n_inv is the inverse of the matrix of
    eigenvectors *)
Definition traction (s : vec3) (n_inv : mat3) (col : nat) : R * R :=
  let ss := sum3 (fun k => n_inv k col * s k * n_inv k col) in
  let ts := sqrt (sqrt (sum3 (fun k => (s k * n_inv k col) ^ 2)) ^ 2 - ss ^ 2) in
  (ss, ts).
Record mohr : Type := mkMohr { circles : list (R * R * R); faces : list (R * R) }.
(** 807-862: the circles (x and y of the centre, radius) and the points of the X-, Y- and Z-face. [eig] is np.linalg.eig (eigenvalues, and a
    matrix with the eigenvectors in its columns), [inv] is np.linalg.inv. *)
Definition mohr_of (eig : mat3 -> vec3 * mat3) (inv : mat3 -> mat3) (zz xz yz : R) : mohr :=
  let '(s, n) := eig (stress_tensor zz xz yz) in
  let '(sigma_3, sigma_2, sigma_1) := sort3 s in
  let n_inv := inv n in
  mkMohr
    [(0.5 * (sigma_2 + sigma_3), 0, 0.5 * (sigma_2 - sigma_3)); (0.5 * (sigma_1 + sigma_3), 0, 0.5 * (sigma_1 - sigma_3));
     (0.5 * (sigma_1 + sigma_2), 0, 0.5 * (sigma_1 - sigma_2))]
    (map (traction s n_inv) [0%nat; 1%nat; 2%nat]).
(** 751-790: the last of the material groups that has the point in one of its triangles. [find ids pt] is the answer of matplotlib's
    trifinder of the triangles [ids] (None for -1), [interp v pt] that of LinearTriInterpolator for the nodal values [v]. *)
Definition point_group {A : Type} (find : list nat -> R * R -> option nat) (groups : list (list nat * A)) (pt : R * R) : option A :=
  fold_left (fun acc g => match find (fst g) pt with Some _ => Some (snd g) | None => acc end) groups None.
(** 693-902: plot_mohrs_circles, up to the drawing *)
Definition plot_mohrs_circles (find : list nat -> R * R -> option nat) (interp : (nat -> R) -> R * R -> R) (eig : mat3 -> vec3 * mat3) (inv : mat3 -> mat3)
    (groups : list group) (res : list (nodal_stress * (nat -> combined))) (pt : R * R) : result mohr :=
  match point_group find (combine (map (fun g => map e_id (snd g)) groups) res) pt with
  | None => Err ValueError
  | Some (_, c) => Ok (mohr_of eig inv (interp (fun i => cb_zz (c i)) pt) (interp (fun i => cb_zx (c i)) pt) (interp (fun i => cb_zy (c i)) pt))
  end.
