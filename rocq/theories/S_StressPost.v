(** Specification vocabulary for the dictionaries of stresses and for Mohr's circles. *)
From Coq Require Import String Reals List Bool.
From Verif Require Import Base M_Fea M_Section M_Init M_Stress S_Fem S_Stress M_StressPost.
Import ListNotations.
Local Open Scope R_scope.

(** The keys of stresses caused by one action: the element stresses they are averages of, and the action. *)
Definition direct_keys : list (string * (stress_out -> V6) * (actions -> R)) :=
  [("sig_zz_n", so_zz_n, a_n); ("sig_zz_mxx", so_zz_mxx, a_mxx); ("sig_zz_myy", so_zz_myy, a_myy); ("sig_zz_m11", so_zz_m11, a_m11); ("sig_zz_m22", so_zz_m22, a_m22);
   ("sig_zx_mzz", so_zx_mzz, a_mzz); ("sig_zy_mzz", so_zy_mzz, a_mzz); ("sig_zx_vx", so_zx_vx, a_vx); ("sig_zy_vx", so_zy_vx, a_vx);
   ("sig_zx_vy", so_zx_vy, a_vy); ("sig_zy_vy", so_zy_vy, a_vy)]%string.
Definition combined_keys : list string :=
  ["sig_zz_m"; "sig_zxy_mzz"; "sig_zxy_vx"; "sig_zxy_vy"; "sig_zx_v"; "sig_zy_v"; "sig_zxy_v"; "sig_zz"; "sig_zx"; "sig_zy"; "sig_zxy"; "sig_11"; "sig_33"; "sig_vm"]%string.

(** dictionary[key] *)
Fixpoint entry {A : Type} (key : string) (d : list (string * A)) : option A :=
  match d with [] => None | (k, v) :: r => if String.eqb key k then Some v else entry key r end.
(** dictionary[key] is an array of [n] numbers, the values of [v] *)
Definition shows (n : nat) (d : list (string * list R)) (key : string) (v : nat -> R) : Prop :=
  exists l, entry key d = Some l /\ length l = n /\ forall i, (i < n)%nat -> nth_error l i = Some (v i).

(** What numpy promises of eig and inv for the matrix [A]: an invertible matrix of unit eigenvectors, in columns; its two-sided inverse. *)
Definition identity3 (i j : nat) : R := if Nat.eqb i j then 1 else 0.
Definition mul3 (a b : mat3) : mat3 := fun i j => sum3 (fun k => a i k * b k j).
Definition below3 (P : nat -> Prop) : Prop := P 0%nat /\ P 1%nat /\ P 2%nat.
Definition eigen_ok (eig : mat3 -> vec3 * mat3) (inv : mat3 -> mat3) (A : mat3) : Prop :=
  let '(s, n) := eig A in
  below3 (fun i => below3 (fun k => mul3 A n i k = s k * n i k)) /\
  below3 (fun k => sum3 (fun i => n i k ^ 2) = 1) /\
  below3 (fun i => below3 (fun j => mul3 n (inv n) i j = identity3 i j /\ mul3 (inv n) n i j = identity3 i j)).

(** matplotlib's trifinder finds one of the triangles [ids] that contain the point, if there is one. *)
Definition exact_find (els : list tri6) (find : list nat -> R * R -> option nat) : Prop :=
  forall ids pt, match find ids pt with
    | Some i => In i ids /\ exists el, nth_error els i = Some el /\ contains el pt
    | None => forall i el, In i ids -> nth_error els i = Some el -> ~ contains el pt end.
(** [v] is the linear interpolation at [pt] of the values [f] at the corners of the triangle [el], which contains [pt]. *)
Definition interpolates (el : tri6) (pt : R * R) (f : nat -> R) (v : R) : Prop :=
  exists eta xi zeta, 0 <= eta /\ 0 <= xi /\ 0 <= zeta /\ eta + xi + zeta = 1 /\
    fst pt = eta * fst (corner_a el) + xi * fst (corner_b el) + zeta * fst (corner_c el) /\
    snd pt = eta * snd (corner_a el) + xi * snd (corner_b el) + zeta * snd (corner_c el) /\
    v = eta * f (c0 (el_ids el)) + xi * f (c1 (el_ids el)) + zeta * f (c2 (el_ids el)).
(** LinearTriInterpolator interpolates linearly in a triangle of the whole mesh that contains the point. *)
Definition linear_interp (els : list tri6) (interp : (nat -> R) -> R * R -> R) : Prop :=
  forall pt, (exists el, In el els /\ contains el pt) -> exists el, In el els /\ forall v, interpolates el pt v (interp v pt).

(** The three circles and the three points of Mohr's diagram of the stress state sig_zz = zz, sig_zx = zx, sig_zy = zy, with the principal
    stresses s1 >= 0 >= s3 (the third one is 0): circle = (x and y of the centre, radius); face = (normal stress, magnitude of the shear stress). *)
Definition mohr_diagram (zz zx zy s1 s3 : R) (m : mohr) : Prop :=
  s3 <= 0 <= s1 /\ is_principal s1 zz zx zy /\ is_principal s3 zz zx zy /\ (forall e, is_principal e zz zx zy -> e = s1 \/ e = 0 \/ e = s3) /\ s1 + s3 = zz /\
  circles m = [(s3 / 2, 0, - s3 / 2); ((s1 + s3) / 2, 0, (s1 - s3) / 2); (s1 / 2, 0, s1 / 2)] /\
  faces m = [(0, Rabs zx); (0, Rabs zy); (zz, sqrt (zx ^ 2 + zy ^ 2))].
