From Coq Require Import Reals Lra Lia.
From Coquelicot Require Import Coquelicot.
From Verif Require Import S_Integral.
Local Open Scope R_scope.

(** General polynomial of degree 4 in two variables. *)
Definition P4 (a00 a10 a01 a20 a11 a02 a30 a21 a12 a03 a40 a31 a22 a13 a04 s t : R) : R :=
  a00 + a10*s + a01*t + a20*s^2 + a11*s*t + a02*t^2
  + a30*s^3 + a21*s^2*t + a12*s*t^2 + a03*t^3
  + a40*s^4 + a31*s^3*t + a22*s^2*t^2 + a13*s*t^3 + a04*t^4.

Lemma is_RInt_poly4 (c0 c1 c2 c3 c4 a b : R) :
  is_RInt (fun t => c0 + c1*t + c2*t^2 + c3*t^3 + c4*t^4) a b
   ((c0*b + c1*b^2/2 + c2*b^3/3 + c3*b^4/4 + c4*b^5/5)
    - (c0*a + c1*a^2/2 + c2*a^3/3 + c3*a^4/4 + c4*a^5/5)).
Proof.
  apply (is_RInt_derive (fun t => c0*t + c1*t^2/2 + c2*t^3/3 + c3*t^4/4 + c4*t^5/5)
                        (fun t => c0 + c1*t + c2*t^2 + c3*t^3 + c4*t^4)).
  - intros x _. auto_derive; [exact I|]. field.
  - intros x _. apply (ex_derive_continuous (fun t => c0 + c1*t + c2*t^2 + c3*t^3 + c4*t^4)).
    auto_derive. exact I.
Qed.

Lemma is_RInt_poly5 (c0 c1 c2 c3 c4 c5 a b : R) :
  is_RInt (fun t => c0 + c1*t + c2*t^2 + c3*t^3 + c4*t^4 + c5*t^5) a b
   ((c0*b + c1*b^2/2 + c2*b^3/3 + c3*b^4/4 + c4*b^5/5 + c5*b^6/6)
    - (c0*a + c1*a^2/2 + c2*a^3/3 + c3*a^4/4 + c4*a^5/5 + c5*a^6/6)).
Proof.
  apply (is_RInt_derive (fun t => c0*t + c1*t^2/2 + c2*t^3/3 + c3*t^4/4 + c4*t^5/5 + c5*t^6/6)
                        (fun t => c0 + c1*t + c2*t^2 + c3*t^3 + c4*t^4 + c5*t^5)).
  - intros x _. auto_derive; [exact I|]. field.
  - intros x _. apply (ex_derive_continuous (fun t => c0 + c1*t + c2*t^2 + c3*t^3 + c4*t^4 + c5*t^5)).
    auto_derive. exact I.
Qed.

Section Simplex.
Context (a00 a10 a01 a20 a11 a02 a30 a21 a12 a03 a40 a31 a22 a13 a04 : R).
Let P := P4 a00 a10 a01 a20 a11 a02 a30 a21 a12 a03 a40 a31 a22 a13 a04.

Definition inner_val (s : R) : R :=
  let c0 := a00 + a10*s + a20*s^2 + a30*s^3 + a40*s^4 in
  let c1 := a01 + a11*s + a21*s^2 + a31*s^3 in
  let c2 := a02 + a12*s + a22*s^2 in
  let c3 := a03 + a13*s in
  let b := 1 - s in
  c0*b + c1*b^2/2 + c2*b^3/3 + c3*b^4/4 + a04*b^5/5.

Lemma P4_inner_is (s : R) : is_RInt (fun t => P s t) 0 (1 - s) (inner_val s).
Proof.
  pose proof (is_RInt_poly4 (a00 + a10*s + a20*s^2 + a30*s^3 + a40*s^4)
    (a01 + a11*s + a21*s^2 + a31*s^3) (a02 + a12*s + a22*s^2) (a03 + a13*s) a04 0 (1-s)) as H.
  eapply is_RInt_ext; [|replace (inner_val s) with
    ((a00 + a10*s + a20*s^2 + a30*s^3 + a40*s^4) * (1-s) +
      (a01 + a11*s + a21*s^2 + a31*s^3) * (1-s)^2/2 + (a02 + a12*s + a22*s^2)*(1-s)^3/3
      + (a03 + a13*s)*(1-s)^4/4 + a04*(1-s)^5/5 -
     ((a00 + a10*s + a20*s^2 + a30*s^3 + a40*s^4) * 0 +
      (a01 + a11*s + a21*s^2 + a31*s^3) * 0^2/2 + (a02 + a12*s + a22*s^2)*0^3/3
      + (a03 + a13*s)*0^4/4 + a04*0^5/5)); [exact H|]].
  - intros x _. unfold P, P4. match goal with |- @eq _ ?a ?b => change (@eq R a b) end. ring.
  - unfold inner_val. field.
Qed.

Definition simplex_val : R :=
  a00/2 + (a10+a01)/6 + (2*a20 + a11 + 2*a02)/24
  + (6*a30 + 2*a21 + 2*a12 + 6*a03)/120
  + (24*a40 + 6*a31 + 4*a22 + 6*a13 + 24*a04)/720.

Lemma inner_val_is : is_RInt inner_val 0 1 simplex_val.
Proof.
  eapply (is_RInt_ext (fun s =>
    (a00 + a01/2 + a02/3 + a03/4 + a04/5)
    + (- a00 + a10 - a01 + a11/2 - a02 + a12/3 - a03 + a13/4 - a04) * s
    + (- a10 + a20 + a01/2 - a11 + a21/2 + a02 - a12 + a22/3 + 3*a03/2 - a13 + 2*a04) * s^2
    + (- a20 + a30 + a11/2 - a21 + a31/2 - a02/3 + a12 - a22 - a03 + 3*a13/2 - 2*a04) * s^3
    + (- a30 + a40 + a21/2 - a31 - a12/3 + a22 + a03/4 - a13 + a04) * s^4
    + (- a40 + a31/2 - a22/3 + a13/4 - a04/5) * s^5)).
  - intros x _. unfold inner_val. match goal with |- @eq _ ?a ?b => change (@eq R a b) end. field.
  - match goal with |- is_RInt (fun s => ?c0 + ?c1 * s + ?c2 * s^2 + ?c3 * s^3 + ?c4*s^4 + ?c5*s^5) _ _ _ =>
      pose proof (is_RInt_poly5 c0 c1 c2 c3 c4 c5 0 1) as H end.
    match type of H with is_RInt _ _ _ ?v => replace simplex_val with v; [exact H|] end.
    unfold simplex_val. field.
Qed.

Lemma simplex_int_P4 : simplex_int P = simplex_val.
Proof.
  unfold simplex_int.
  rewrite (RInt_ext _ inner_val).
  - apply is_RInt_unique, inner_val_is.
  - intros x _. apply is_RInt_unique, P4_inner_is.
Qed.

Lemma P4_inner_ex (s : R) : ex_RInt (fun t => P s t) 0 (1 - s).
Proof. eexists. apply P4_inner_is. Qed.

Lemma simplex_int_P4_nonneg :
  (forall s t, 0 <= s -> 0 <= t -> s + t <= 1 -> 0 <= P s t) -> 0 <= simplex_int P.
Proof.
  intros H. unfold simplex_int.
  rewrite (RInt_ext _ inner_val); [|intros x _; apply is_RInt_unique, P4_inner_is].
  apply RInt_ge_0; [lra| eexists; apply inner_val_is |].
  intros s Hs.
  replace (inner_val s) with (RInt (fun t => P s t) 0 (1 - s)) by apply is_RInt_unique, P4_inner_is.
  apply RInt_ge_0; [lra| apply P4_inner_ex|].
  intros t Ht. apply H; lra.
Qed.
End Simplex.

Lemma simplex_int_ext (f g : R -> R -> R) :
  (forall s t, f s t = g s t) -> simplex_int f = simplex_int g.
Proof.
  intros H. unfold simplex_int. apply RInt_ext. intros s _. apply RInt_ext. intros t _. apply H.
Qed.
