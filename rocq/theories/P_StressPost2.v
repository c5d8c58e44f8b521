(** An eigenvalue solver, a triangle finder and an interpolator that meet the hypotheses of the theorems about Mohr's circles. *)
From Coq Require Import Nsatz.
From Coq Require Import String Reals List Bool Arith Lra Lia.
From Verif Require Import Base M_Fea S_Integral S_Fem P_Elem M_Init M_Section M_Stress S_Stress M_StressPost S_StressPost P_StressPost.
Import ListNotations.
Local Open Scope R_scope.

Definition ex_eig (A : mat3) : vec3 * mat3 :=
  let zz := A 2%nat 2%nat in let zx := A 0%nat 2%nat in let zy := A 1%nat 2%nat in
  if Req_EM_T (zx ^ 2 + zy ^ 2) 0 then ((fun k => match k with 2%nat => zz | _ => 0 end), identity3)
  else
    let d := sqrt ((zz / 2) ^ 2 + (zx ^ 2 + zy ^ 2)) in
    let p := / sqrt (zx ^ 2 + zy ^ 2 + (zz / 2 + d) ^ 2) in let q := / sqrt (zx ^ 2 + zy ^ 2 + (zz / 2 - d) ^ 2) in let r := / sqrt (zx ^ 2 + zy ^ 2) in
    ((fun k => match k with 0%nat => zz / 2 + d | 1%nat => zz / 2 - d | _ => 0 end),
     fun i k => match k, i with
       | 0%nat, 0%nat => zx * p | 0%nat, 1%nat => zy * p | 0%nat, 2%nat => (zz / 2 + d) * p
       | 1%nat, 0%nat => zx * q | 1%nat, 1%nat => zy * q | 1%nat, 2%nat => (zz / 2 - d) * q
       | 2%nat, 0%nat => zy * r | 2%nat, 1%nat => - zx * r | _, _ => 0 end).
Definition ex_inv (n : mat3) : mat3 := fun i j => n j i.
Lemma inv_sqrt_square x : 0 < x -> (/ sqrt x) ^ 2 * x = 1.
Proof. intros H. pose proof (sqrt_lt_R0 x H) as S. rewrite <- (pow2_sqrt x) at 2 by lra. field. lra. Qed.
Lemma ex_eigen : forall zz zx zy, eigen_ok ex_eig ex_inv (stress_tensor zz zx zy).
Proof.
  intros zz zx zy. unfold eigen_ok, ex_eig. cbn [stress_tensor]. destruct (Req_EM_T (zx ^ 2 + zy ^ 2) 0) as [Z|Z].
  - assert (zx = 0) as -> by nra. assert (zy = 0) as -> by nra. unfold below3, mul3, ex_inv, identity3, sum3, stress_tensor. cbn [Nat.eqb]. repeat split; ring.
  - assert (T : 0 < zx ^ 2 + zy ^ 2) by (pose proof (pow2_ge_0 zx); pose proof (pow2_ge_0 zy); lra). pose proof (pow2_ge_0 (zz / 2)) as T0.
    set (d := sqrt ((zz / 2) ^ 2 + (zx ^ 2 + zy ^ 2))). assert (D : d ^ 2 = (zz / 2) ^ 2 + (zx ^ 2 + zy ^ 2)) by (apply pow2_sqrt; lra).
    pose proof (pow2_ge_0 (zz / 2 + d)) as B1. pose proof (pow2_ge_0 (zz / 2 - d)) as B3.
    set (p := / sqrt (zx ^ 2 + zy ^ 2 + (zz / 2 + d) ^ 2)). assert (P : p ^ 2 * (zx ^ 2 + zy ^ 2 + (zz / 2 + d) ^ 2) = 1) by (apply inv_sqrt_square; lra).
    set (q := / sqrt (zx ^ 2 + zy ^ 2 + (zz / 2 - d) ^ 2)). assert (Q : q ^ 2 * (zx ^ 2 + zy ^ 2 + (zz / 2 - d) ^ 2) = 1) by (apply inv_sqrt_square; lra).
    set (r := / sqrt (zx ^ 2 + zy ^ 2)). assert (W : r ^ 2 * (zx ^ 2 + zy ^ 2) = 1) by (apply inv_sqrt_square; lra).
    assert (EZ : zz = 2 * (zz / 2)) by lra. set (h := zz / 2) in *. clearbody h d p q r. subst zz. clear Z T T0 B1 B3.
    unfold below3, mul3, ex_inv, identity3, sum3, stress_tensor. cbn [Nat.eqb]. cbn [pow] in *. rewrite ?Rmult_1_r in *. repeat split; try ring; try nsatz.
Qed.
(** The first triangle that contains the point, and linear interpolation in it *)
Definition ex_within (els : list tri6) (pt : R * R) (i : nat) : bool := match nth_error els i with Some el => point_within_element el pt | None => false end.
Definition ex_find (els : list tri6) (ids : list nat) (pt : R * R) : option nat := find (ex_within els pt) ids.
Definition ex_interp (els : list tri6) (v : nat -> R) (pt : R * R) : R :=
  match find (fun el => point_within_element el pt) els with
  | None => 0
  | Some el => let '(eta, xi, zeta) := local_coord el pt in eta * v (c0 (el_ids el)) + xi * v (c1 (el_ids el)) + zeta * v (c2 (el_ids el))
  end.
Lemma ex_find_exact els : (forall el, In el els -> orient (corner_a el) (corner_b el) (corner_c el) <> 0) -> exact_find els (ex_find els).
Proof.
  intros O ids pt. unfold ex_find. destruct (find (ex_within els pt) ids) as [i|] eqn:F.
  - apply find_some in F. destruct F as [I W]. split; [exact I|]. unfold ex_within in W. destruct (nth_error els i) as [el|] eqn:E; [|discriminate W]. exists el. split; [reflexivity|].
    apply point_within_spec; [apply O, (nth_error_In _ _ E)|exact W].
  - intros i el I E Ce. apply find_none with (x := i) in F; [|exact I]. unfold ex_within in F. rewrite E in F. apply point_within_spec in Ce; [congruence|apply O, (nth_error_In _ _ E)].
Qed.
Lemma ex_interp_linear els : (forall el, In el els -> orient (corner_a el) (corner_b el) (corner_c el) <> 0) -> linear_interp els (ex_interp els).
Proof.
  intros O pt (el0 & I0 & C0). unfold ex_interp. destruct (find (fun el => point_within_element el pt) els) as [el|] eqn:F.
  2: { apply find_none with (x := el0) in F; [|exact I0]. apply point_within_spec in C0; [congruence|apply O, I0]. }
  apply find_some in F. destruct F as [I W]. exists el. split; [exact I|]. intros v.
  apply point_within_spec in W; [|apply O, I]. pose proof (local_coord_spec el pt (O el I)) as LC. destruct (local_coord el pt) as [[eta xi] zeta]. destruct LC as [L1 L2].
  destruct W as (e & x & z & He & Hx & Hz & Hs & H1 & H2). exists e, x, z. do 6 (split; [assumption|]).
  assert (X : eta * fst (corner_a el) + xi * fst (corner_b el) + zeta * fst (corner_c el) = fst pt /\ eta * snd (corner_a el) + xi * snd (corner_b el) + zeta * snd (corner_c el) = snd pt) by (rewrite <- L2; split; reflexivity).
  destruct X as [X1 X2]. specialize (O el I). unfold orient in O.
  set (ax := fst (corner_a el)) in *. set (ay := snd (corner_a el)) in *. set (bx := fst (corner_b el)) in *. set (by' := snd (corner_b el)) in *. set (cx := fst (corner_c el)) in *. set (cy := snd (corner_c el)) in *.
  assert (F1 : (eta - e) * (ax - cx) + (xi - x) * (bx - cx) = 0). { replace zeta with (1 - eta - xi) in X1 by lra. replace z with (1 - e - x) in H1 by lra. lra. }
  assert (F2 : (eta - e) * (ay - cy) + (xi - x) * (by' - cy) = 0). { replace zeta with (1 - eta - xi) in X2 by lra. replace z with (1 - e - x) in H2 by lra. lra. }
  assert (Ee : eta = e).
  { apply Rmult_eq_reg_l with ((bx - ax) * (cy - ay) - (cx - ax) * (by' - ay)); [|exact O]. apply Rminus_diag_uniq.
    transitivity (((eta - e) * (ax - cx) + (xi - x) * (bx - cx)) * (by' - cy) - ((eta - e) * (ay - cy) + (xi - x) * (by' - cy)) * (bx - cx)); [ring|]. rewrite F1, F2. ring. }
  assert (Ex : xi = x).
  { apply Rmult_eq_reg_l with ((bx - ax) * (cy - ay) - (cx - ax) * (by' - ay)); [|exact O]. apply Rminus_diag_uniq.
    transitivity (((eta - e) * (ay - cy) + (xi - x) * (by' - cy)) * (ax - cx) - ((eta - e) * (ax - cx) + (xi - x) * (bx - cx)) * (ay - cy)); [ring|]. rewrite F1, F2. ring. }
  assert (Ez : zeta = z) by lra. rewrite Ee, Ex, Ez. reflexivity.
Qed.
