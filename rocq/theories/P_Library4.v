(** Proofs about the lipped sections (cee, zed). *)
From Coq Require Import Reals List Bool Arith Lra Lia.
From Verif Require Import Base M_Fea M_Init M_Geometry S_Geometry P_Geometry P_Geometry3 P_Geometry6 M_Library S_Library P_Library P_Library2 P_Library3.
Import ListNotations.
Local Open Scope R_scope.

Section Lipped.
  Variables (n : nat) (Hn : (2 <= n)%nat).
  Lemma cee_facts d b l t r_out : 0 < t -> 0 <= r_out -> 2 * t <= b -> 2 * r_out <= b -> 2 * t <= d -> 2 * r_out < d -> 2 * l <= d -> (r_out < l -> t <= l) ->
    let p := cee_points d b l t r_out n in
    (forall sh m, polygon_geometry sh p m = Ok (new_geometry sh (mkPoly p []) m None 12)) /\
    ring_area p = t * (d + 2 * (b - t)) - 2 * corner n r_out + 2 * corner n (Rmax (r_out - t) 0) + 2 * lip_area n l t r_out /\ spans p 0 0 b d /\ symmetric_y (d / 2) p.
  Proof.
    intros H1 H2 H3 H4 H5 H6 H7 H8 p. unfold lip_area.
    assert (R1 : Rmax (r_out - t) 0 = r_out - t /\ 0 <= r_out - t \/ Rmax (r_out - t) 0 = 0 /\ r_out <= t) by (unfold Rmax; destruct (Rle_dec (r_out - t) 0); lra).
    set (r_in := Rmax (r_out - t) 0) in *. assert (0 <= r_in) by lra.
    destruct (Rlt_dec r_out l) as [L1|L1]; [|destruct (Rlt_dec t l) as [L2|L2]].
    - specialize (H8 L1).
      assert (S : exists a z v, seg p a z v /\ snd a = r_out /\ snd z = d - r_out /\ (v + cross z a) / 2 = t * (d + 2 * (b - t)) - 2 * corner n r_out + 2 * corner n r_in + 2 * (t * (l - t) - corner n r_out + corner n r_in)).
      { unfold p, cee_points. fold r_in. destruct (Rlt_dec r_out l); [|contradiction]. do 3 eexists. split; [segs|]. unfold cross. cbn [fst snd q_cos q_sin q_next]. rewrite !corner_K. repeat split; lra. }
      destruct S as (a & z & v & S & Ea & Ez & V). split; [|split; [|split]].
      + intros sh m. apply (seg_make sh p a z v m S); [|lra]. unfold p, cee_points. fold r_in. destruct (Rlt_dec r_out l); [|contradiction]. rewrite !app_length. cbn [length]. lia.
      + rewrite (seg_area _ _ _ _ S). exact V.
      + unfold p, cee_points. fold r_in. destruct (Rlt_dec r_out l); [|contradiction]. spanning.
      + exists [], p. split; [reflexivity|]. rewrite app_nil_r. unfold p, cee_points. fold r_in. destruct (Rlt_dec r_out l); [|contradiction]. mirrored Hn.
    - assert (R2 : Rmax (l - t) 0 = l - t) by (unfold Rmax; destruct (Rle_dec (l - t) 0); lra).
      assert (S : exists a z v, seg p a z v /\ snd a = r_out /\ snd z = d - r_out /\ (v + cross z a) / 2 = t * (d + 2 * (b - t)) - 2 * corner n r_out + 2 * corner n r_in + 2 * (t * (l - t) - corner n l + corner n (l - t))).
      { unfold p, cee_points. fold r_in. destruct (Rlt_dec r_out l); [contradiction|]. destruct (Rlt_dec t l); [|contradiction]. rewrite R2. do 3 eexists. split; [segs|]. unfold cross. cbn [fst snd q_cos q_sin q_next]. rewrite !corner_K. repeat split; lra. }
      destruct S as (a & z & v & S & Ea & Ez & V). split; [|split; [|split]].
      + intros sh m. apply (seg_make sh p a z v m S); [|lra]. unfold p, cee_points. fold r_in. destruct (Rlt_dec r_out l); [contradiction|]. destruct (Rlt_dec t l); [|contradiction]. rewrite !app_length.
        pose proof (fun c r th w ph => radius_length c r th n w ph Hn) as Q. rewrite R2.
        pose proof (Q (r_out, r_out) r_out PI true (PI / 2)). pose proof (Q (t + r_in, t + r_in) r_in (3 / 2 * PI) false (PI / 2)). pose proof (Q (t + r_in, d - t - r_in) r_in PI false (PI / 2)). lia.
      + rewrite (seg_area _ _ _ _ S). exact V.
      + unfold p, cee_points. fold r_in. destruct (Rlt_dec r_out l); [contradiction|]. destruct (Rlt_dec t l); [|contradiction]. rewrite R2. spanning.
      + exists [], p. split; [reflexivity|]. rewrite app_nil_r. unfold p, cee_points. fold r_in. destruct (Rlt_dec r_out l); [contradiction|]. destruct (Rlt_dec t l); [|contradiction]. mirrored Hn.
    - assert (S : exists a z v, seg p a z v /\ snd a = r_out /\ snd z = d - r_out /\ (v + cross z a) / 2 = t * (d + 2 * (b - t)) - 2 * corner n r_out + 2 * corner n r_in + 2 * 0).
      { unfold p, cee_points. fold r_in. destruct (Rlt_dec r_out l); [contradiction|]. destruct (Rlt_dec t l); [contradiction|]. do 3 eexists. split; [segs|]. unfold cross. cbn [fst snd q_cos q_sin q_next]. rewrite !corner_K. repeat split; lra. }
      destruct S as (a & z & v & S & Ea & Ez & V). split; [|split; [|split]].
      + intros sh m. apply (seg_make sh p a z v m S); [|lra]. unfold p, cee_points. fold r_in. destruct (Rlt_dec r_out l); [contradiction|]. destruct (Rlt_dec t l); [contradiction|]. rewrite !app_length. cbn [length]. lia.
      + rewrite (seg_area _ _ _ _ S). exact V.
      + unfold p, cee_points. fold r_in. destruct (Rlt_dec r_out l); [contradiction|]. destruct (Rlt_dec t l); [contradiction|]. spanning.
      + exists [], p. split; [reflexivity|]. rewrite app_nil_r. unfold p, cee_points. fold r_in. destruct (Rlt_dec r_out l); [contradiction|]. destruct (Rlt_dec t l); [contradiction|]. mirrored Hn.
  Qed.
  Lemma zed_facts d b_l b_r l t r_out : 0 < t -> 0 <= r_out -> 2 * t <= b_l -> 2 * r_out <= b_l -> 2 * t <= b_r -> 2 * r_out <= b_r -> 2 * t <= d -> r_out + t + Rmax (r_out - t) 0 < d -> 2 * l <= d -> (r_out < l -> t <= l) ->
    let p := zed_points d b_l b_r l t r_out n in
    (forall sh m, polygon_geometry sh p m = Ok (new_geometry sh (mkPoly p []) m None 12)) /\
    ring_area p = t * (d + (b_l - t) + (b_r - t)) - 2 * corner n r_out + 2 * corner n (Rmax (r_out - t) 0) + 2 * lip_area n l t r_out /\ spans p (t - b_l) 0 b_r d.
  Proof.
    intros H1 H2 H3 H3' H4 H4' H5 H6 H7 H8 p. unfold lip_area.
    assert (R1 : Rmax (r_out - t) 0 = r_out - t /\ 0 <= r_out - t \/ Rmax (r_out - t) 0 = 0 /\ r_out <= t) by (unfold Rmax; destruct (Rle_dec (r_out - t) 0); lra).
    set (r_in := Rmax (r_out - t) 0) in *. assert (0 <= r_in) by lra.
    destruct (Rlt_dec r_out l) as [L1|L1]; [|destruct (Rlt_dec t l) as [L2|L2]].
    - specialize (H8 L1).
      assert (S : exists a z v, seg p a z v /\ snd a = r_out /\ snd z = d - t - r_in /\ (v + cross z a) / 2 = t * (d + (b_l - t) + (b_r - t)) - 2 * corner n r_out + 2 * corner n r_in + 2 * (t * (l - t) - corner n r_out + corner n r_in)).
      { unfold p, zed_points. fold r_in. destruct (Rlt_dec r_out l); [|contradiction]. do 3 eexists. split; [segs|]. unfold cross. cbn [fst snd q_cos q_sin q_next]. rewrite !corner_K. repeat split; lra. }
      destruct S as (a & z & v & S & Ea & Ez & V). split; [|split].
      + intros sh m. apply (seg_make sh p a z v m S); [|lra]. unfold p, zed_points. fold r_in. destruct (Rlt_dec r_out l); [|contradiction]. rewrite !app_length. cbn [length]. lia.
      + rewrite (seg_area _ _ _ _ S). exact V.
      + unfold p, zed_points. fold r_in. destruct (Rlt_dec r_out l); [|contradiction]. spanning.
    - assert (R2 : Rmax (l - t) 0 = l - t) by (unfold Rmax; destruct (Rle_dec (l - t) 0); lra).
      assert (S : exists a z v, seg p a z v /\ snd a = r_out /\ snd z = d - t - r_in /\ (v + cross z a) / 2 = t * (d + (b_l - t) + (b_r - t)) - 2 * corner n r_out + 2 * corner n r_in + 2 * (t * (l - t) - corner n l + corner n (l - t))).
      { unfold p, zed_points. fold r_in. destruct (Rlt_dec r_out l); [contradiction|]. destruct (Rlt_dec t l); [|contradiction]. rewrite R2. do 3 eexists. split; [segs|]. unfold cross. cbn [fst snd q_cos q_sin q_next]. rewrite !corner_K. repeat split; lra. }
      destruct S as (a & z & v & S & Ea & Ez & V). split; [|split].
      + intros sh m. apply (seg_make sh p a z v m S); [|lra]. unfold p, zed_points. fold r_in. destruct (Rlt_dec r_out l); [contradiction|]. destruct (Rlt_dec t l); [|contradiction]. rewrite !app_length.
        pose proof (fun c r th w ph => radius_length c r th n w ph Hn) as Q. rewrite R2.
        pose proof (Q (r_out, r_out) r_out PI true (PI / 2)). pose proof (Q (t + r_in, t + r_in) r_in (3 / 2 * PI) false (PI / 2)). pose proof (Q (- r_in, d - t - r_in) r_in (PI / 2) false (PI / 2)). lia.
      + rewrite (seg_area _ _ _ _ S). exact V.
      + unfold p, zed_points. fold r_in. destruct (Rlt_dec r_out l); [contradiction|]. destruct (Rlt_dec t l); [|contradiction]. rewrite R2. spanning.
    - assert (S : exists a z v, seg p a z v /\ snd a = r_out /\ snd z = d - t - r_in /\ (v + cross z a) / 2 = t * (d + (b_l - t) + (b_r - t)) - 2 * corner n r_out + 2 * corner n r_in + 2 * 0).
      { unfold p, zed_points. fold r_in. destruct (Rlt_dec r_out l); [contradiction|]. destruct (Rlt_dec t l); [contradiction|]. do 3 eexists. split; [segs|]. unfold cross. cbn [fst snd q_cos q_sin q_next]. rewrite !corner_K. repeat split; lra. }
      destruct S as (a & z & v & S & Ea & Ez & V). split; [|split].
      + intros sh m. apply (seg_make sh p a z v m S); [|lra]. unfold p, zed_points. fold r_in. destruct (Rlt_dec r_out l); [contradiction|]. destruct (Rlt_dec t l); [contradiction|]. rewrite !app_length. cbn [length]. lia.
      + rewrite (seg_area _ _ _ _ S). exact V.
      + unfold p, zed_points. fold r_in. destruct (Rlt_dec r_out l); [contradiction|]. destruct (Rlt_dec t l); [contradiction|]. spanning.
  Qed.
End Lipped.
