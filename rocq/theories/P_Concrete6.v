(** Taking bars out of concrete: rings, holes, what is left. *)
From Coq Require Import String Reals List Bool Arith ZArith Lra Lia Permutation.
From Verif Require Import Base M_Fea M_Init M_Bisect M_Geometry S_Geometry P_Geometry P_Geometry3 P_Geometry6 M_Library S_Library P_Library P_Library2 P_Library5 P_Library6 P_Library8 M_SetOps S_SetOps P_SetOps M_Concrete S_Concrete P_Concrete P_Concrete3.
Import ListNotations.
Local Open Scope R_scope.

(** ** Rings *)
Lemma combine_fst {A B} (l : list A) (m : list B) : (length l <= length m)%nat -> map fst (combine l m) = l.
Proof. revert m. induction l as [|a l IH]; intros [|b m] H; cbn in *; try reflexivity; [lia|]. f_equal. apply IH. lia. Qed.
Lemma combine_snd {A B} (l : list A) (m : list B) : (length m <= length l)%nat -> map snd (combine l m) = m.
Proof. revert m. induction l as [|a l IH]; intros [|b m] H; cbn in *; try reflexivity; [lia|]. f_equal. apply IH. lia. Qed.
Lemma next_length (l : list pt) : length (tl l ++ firstn 1 l) = length l.
Proof. destruct l as [|a l]; [reflexivity|]. cbn. rewrite app_length. cbn. lia. Qed.
Lemma edges_fst l : map fst (edges l) = l.
Proof. apply combine_fst. rewrite next_length. lia. Qed.
Lemma edges_snd l : Permutation (map snd (edges l)) l.
Proof. unfold edges. rewrite combine_snd by (rewrite next_length; lia). destruct l as [|a l]; [constructor|]. cbn. symmetry. apply Permutation_cons_append. Qed.
Lemma back_back e : back (back e) = e. Proof. destruct e; reflexivity. Qed.
Lemma map_back_back l : map back (map back l) = l.
Proof. rewrite map_map. rewrite (map_ext _ (fun e => e)) by apply back_back. apply map_id. Qed.
Lemma same_refl l : same_ring l l. Proof. left. reflexivity. Qed.
Lemma same_sym l m : same_ring l m -> same_ring m l.
Proof. intros [H|H]; [left; symmetry; exact H|right]. apply (Permutation_map back) in H. rewrite map_back_back in H. symmetry. exact H. Qed.
Lemma same_trans l m k : same_ring l m -> same_ring m k -> same_ring l k.
Proof.
  intros [H|H] [K|K].
  - left. etransitivity; eassumption.
  - right. etransitivity; eassumption.
  - right. etransitivity; [exact H|]. apply Permutation_map. exact K.
  - left. etransitivity; [exact H|]. apply (Permutation_map back) in K. rewrite map_back_back in K. exact K.
Qed.
Lemma same_vertices l m : same_ring l m -> Permutation l m.
Proof.
  intros [H|H].
  - apply (Permutation_map fst) in H. rewrite !edges_fst in H. exact H.
  - apply (Permutation_map fst) in H. rewrite edges_fst, map_map in H. etransitivity; [exact H|]. apply edges_snd.
Qed.
Lemma turn_back e p : turn (back e) p = - turn e p.
Proof. unfold turn, back. cbn [fst snd]. ring. Qed.
Lemma inside_same b l m : same_ring l m -> inside b l -> inside b m.
Proof.
  intros [H|H] I.
  - destruct I as [I|I]; [left|right]; (eapply Forall_impl; [|exact I]); intros p F; cbv beta in *; eapply Permutation_Forall; eassumption.
  - assert (Q : forall (P Q : pt * pt -> Prop), (forall e, P (back e) -> Q e) -> Forall P (edges l) -> Forall Q (edges m)).
    { intros P Q K F. apply (Permutation_Forall H) in F. rewrite Forall_map in F. eapply Forall_impl; [|exact F]. intros e; apply K. }
    destruct I as [I|I]; [right|left]; (eapply Forall_impl; [|exact I]); intros p F; cbv beta in *; (eapply Q; [|exact F]); intros e; cbv beta; rewrite turn_back; lra.
Qed.
Lemma apart_same l m l' m' : same_ring l l' -> same_ring m m' -> apart l m -> apart l' m'.
Proof. intros H K (u & v & w & A & B). exists u, v, w. apply same_vertices in H, K. split; eapply Permutation_Forall; eassumption. Qed.
Lemma apart_sym l m : apart l m -> apart m l.
Proof. intros (u & v & w & A & B). exists (- u), (- v), (- w). split; (eapply Forall_impl; [|eassumption]); intros p; cbv beta; lra. Qed.

(** ** Areas of rings *)
Lemma shoelace_edges f a l : shoelace f a l = Rsum (map (fun e => f (fst e) (snd e)) (combine l (tl l ++ [a]))).
Proof. induction l as [|b [|c l] IH]; [reflexivity| |]. - unfold Rsum. cbn. ring. - change (shoelace f a (b :: c :: l)) with (f b c + shoelace f a (c :: l)). rewrite IH. reflexivity. Qed.
Lemma around_edges f l : around f l = Rsum (map (fun e => f (fst e) (snd e)) (edges l)).
Proof. destruct l as [|a l]; [reflexivity|]. unfold around. rewrite shoelace_edges. reflexivity. Qed.
Lemma Rsum_perm l m : Permutation l m -> Rsum l = Rsum m.
Proof. unfold Rsum. induction 1; cbn [fold_right]; lra. Qed.
Lemma same_area l m : same_ring l m -> Rabs (ring_area l) = Rabs (ring_area m).
Proof.
  intros [H|H]; unfold ring_area; rewrite !around_edges.
  - f_equal. f_equal. apply Rsum_perm. apply Permutation_map. exact H.
  - rewrite (Rsum_perm _ _ (Permutation_map (fun e => cross (fst e) (snd e)) H)), map_map.
    replace (Rsum (map (fun x => cross (fst (back x)) (snd (back x))) (edges m))) with (- Rsum (map (fun e => cross (fst e) (snd e)) (edges m))).
    + match goal with |- Rabs (- ?s / 2) = _ => replace (- s / 2) with (- (s / 2)) by lra end. apply Rabs_Ropp.
    + unfold Rsum. clear H. induction (edges m) as [|e es IH]; cbn [map fold_right]; [lra|]. rewrite <- IH. unfold cross, back. cbn [fst snd]. ring.
Qed.

(** ** Lists of holes *)
Lemma Forall2_same_sym hs ks : Forall2 same_ring hs ks -> Forall2 same_ring ks hs.
Proof. induction 1; constructor; [apply same_sym; assumption|assumption]. Qed.
Lemma Forall2_same_trans hs ks : Forall2 same_ring hs ks -> forall ms, Forall2 same_ring ks ms -> Forall2 same_ring hs ms.
Proof. induction 1; intros ms K; inversion K; subst; constructor; [eapply same_trans; eassumption|auto]. Qed.
Lemma Forall2_same_refl hs : Forall2 same_ring hs hs. Proof. induction hs; constructor; [apply same_refl|assumption]. Qed.
Lemma rings_refl hs : same_rings hs hs. Proof. exists hs. split; [reflexivity|apply Forall2_same_refl]. Qed.
Lemma forall2_perm (hs ks ks' : list (list pt)) : Permutation ks ks' -> forall hs, Forall2 same_ring hs ks -> exists hs', Permutation hs hs' /\ Forall2 same_ring hs' ks'.
Proof.
  induction 1 as [|x l l' P IH|x y l|l l' l'' P1 IH1 P2 IH2]; intros hs0 F.
  - exists hs0. split; [reflexivity|exact F].
  - inversion F as [|a ? b ? Ha Hb]; subst. destruct (IH _ Hb) as (hs' & Q & G). exists (a :: hs'). split; [constructor; exact Q|constructor; assumption].
  - inversion F as [|a ? b ? Ha Hb]; subst. inversion Hb as [|c ? d ? Hc Hd]; subst. exists (c :: a :: d). split; [constructor|]. constructor; [assumption|constructor; assumption].
  - destruct (IH1 _ F) as (h1 & Q1 & G1). destruct (IH2 _ G1) as (h2 & Q2 & G2). exists h2. split; [etransitivity; eassumption|exact G2].
Qed.
Lemma rings_trans a b c : same_rings a b -> same_rings b c -> same_rings a c.
Proof.
  intros (hs & P & F) (ks & Q & G). destruct (forall2_perm hs b ks (Permutation_sym Q) hs F) as (hs' & P' & F'). exists hs'. split; [etransitivity; [symmetry; exact P'|exact P]|].
  eapply Forall2_same_trans; eassumption.
Qed.
Lemma rings_cons r a b : same_rings a b -> same_rings (r :: a) (r :: b).
Proof. intros (hs & P & F). exists (r :: hs). split; [constructor; exact P|constructor; [apply same_refl|exact F]]. Qed.
Lemma rings_perm a a' b : Permutation a a' -> same_rings a b -> same_rings a' b.
Proof. intros P (hs & Q & F). exists hs. split; [etransitivity; eassumption|exact F]. Qed.
Lemma rings_sub a b b' : Forall2 same_ring b b' -> same_rings a b -> same_rings a b'.
Proof. intros P (hs & Q & F). exists hs. split; [exact Q|eapply Forall2_same_trans; eassumption]. Qed.
Lemma rings_left a a' b : Forall2 same_ring a' a -> same_rings a b -> same_rings a' b.
Proof. intros P F. eapply rings_trans; [|exact F]. exists a'. split; [reflexivity|exact P]. Qed.
Lemma rings_nil b : same_rings [] b -> b = [].
Proof. intros (hs & P & F). apply Permutation_sym, Permutation_nil in P. subst. inversion F. reflexivity. Qed.
Lemma rings_forall (Q : list pt -> Prop) a b : (forall l m, same_ring l m -> Q l -> Q m) -> same_rings a b -> Forall Q a -> Forall Q b.
Proof. intros K (hs & P & F) G. apply (Permutation_Forall (Permutation_sym P)) in G. clear P. induction F; [constructor|]. inversion G; subst. constructor; [eapply K; eassumption|auto]. Qed.
Lemma rings_area a b : same_rings a b -> sumf (fun l => Rabs (ring_area l)) a = sumf (fun l => Rabs (ring_area l)) b.
Proof.
  intros (hs & P & F). unfold sumf. rewrite <- (Rsum_perm _ _ (Permutation_map _ P)). clear P. unfold Rsum. induction F as [|l m ls ms S F IH]; [reflexivity|]. cbn [map fold_right]. rewrite IH, (same_area l m S). reflexivity.
Qed.

(** ** A geometry that is a ring with holes *)
Definition cut_of (r : list pt) (m : mat_obj) (hs : list (list pt)) (g : geom) : Prop :=
  gm_mat g = m /\ gm_tol g = 12%nat /\ gm_assigned g = None /\ same_ring r (ext (gm_poly g)) /\ same_rings hs (ints (gm_poly g)).
Definition grid (r : list pt) : Prop := Forall (pt_on_grid 12) r.
Definition solid (r : list pt) : Prop := grid r /\ exists v, In v r /\ (h < Rabs (fst v) \/ h < Rabs (snd v)).
Lemma grid_same l m : same_ring l m -> grid l -> grid m.
Proof. intros H. apply Permutation_Forall, same_vertices, H. Qed.
Lemma solid_keep p : solid (ext p) -> Forall grid (ints p) -> round_polygon_vertices p 12 = p.
Proof.
  intros [G (v & Hv & K)] I. rewrite round_keep by (exists v; auto). destruct p as [e is_]. unfold map_polygon. cbn [ext ints] in *. f_equal.
  - rewrite <- (map_id e) at 2. apply map_ext_in. intros q Hq. apply round_pt_id. unfold grid in G. rewrite Forall_forall in G. auto.
  - rewrite <- (map_id is_) at 2. apply map_ext_in. intros l Hl. rewrite <- (map_id l) at 2. apply map_ext_in. intros q Hq. apply round_pt_id. rewrite Forall_forall in I. specialize (I l Hl). unfold grid in I. rewrite Forall_forall in I. auto.
Qed.
Lemma cut_new sh p m r hs : solid r -> Forall grid hs -> same_ring r (ext p) -> same_rings hs (ints p) -> cut_of r m hs (new_geometry sh p m None 12).
Proof.
  intros [G (v & Hv & K)] I E H. destruct (new_geometry_poly sh p m None 12) as (P & M & C & T). repeat split; try assumption; rewrite P, solid_keep; try assumption;
    try (split; [eapply grid_same; eassumption|exists v; split; [eapply Permutation_in; [apply same_vertices, E|exact Hv]|exact K]]); eapply rings_forall; try eassumption; apply grid_same.
Qed.
(** What the bar with ring [b] does to a member *)
Definition cuts_to (b : list pt) (s s' : list pt * mat_obj * list (list pt)) : Prop :=
  fst s' = fst s /\ ((apart (fst (fst s)) b /\ snd s' = snd s) \/ (inside b (fst (fst s)) /\ Forall (apart b) (snd s) /\ snd s' = b :: snd s)).
Definition is_cut (s : list pt * mat_obj * list (list pt)) (g : geom) : Prop := solid (fst (fst s)) /\ Forall grid (snd s) /\ cut_of (fst (fst s)) (snd (fst s)) (snd s) g.
Lemma sub_one sh so s s' g bar b : cuts so -> is_cut s g -> cuts_to b s s' -> gm_poly bar = mkPoly b [] -> solid b ->
  exists g', sub_single sh so g (ISingle bar) = Ok (ISingle g') /\ is_cut s' g'.
Proof.
  intros U (S & I & M & T & C & E & H) [Q W] B SB. pose proof (proj1 SB) as GB. destruct s as [[r m] hs], s' as [[r' m'] hs']. cbn [fst snd] in *. injection Q as -> ->.
  assert (D : exists a', so_difference so [gm_poly g] [mkPoly b []] = ShPolygon a' /\ same_ring (ext (gm_poly g)) (ext a') /\ same_rings hs' (ints a')).
  { destruct W as [[A ->]|(A & F & ->)].
    - destruct (cut_apart so U (gm_poly g) (mkPoly b [])) as (a' & D1 & D2 & D3); [cbn [ext]; eapply apart_same; [exact E|apply same_refl|exact A]|]. exists a'. split; [exact D1|]. split; [exact D2|]. eapply rings_trans; eassumption.
    - destruct (cut_hole so U (gm_poly g) (mkPoly b [])) as (a' & D1 & D2 & D3); [intros N; rewrite N in E; destruct S as [_ (v & Hv & _)]; apply (Permutation_in _ (same_vertices _ _ E)) in Hv; exact Hv|cbn [ext]; intros N; destruct SB as [_ (v & Hv & _)]; rewrite N in Hv; exact Hv|reflexivity|cbn [ext]; eapply inside_same; eassumption|cbn [ext]; eapply rings_forall; [|exact H|exact F]; intros l m0 K L; eapply apart_same; [apply same_refl|exact K|exact L]|].
      exists a'. split; [exact D1|]. split; [exact D2|]. cbn [ext] in D3. eapply rings_trans; [apply rings_cons, H|exact D3]. }
  destruct D as (a' & D1 & D2 & D3). assert (I' : Forall grid hs') by (destruct W as [[_ ->]|(_ & _ & ->)]; [exact I|constructor; assumption]).
  exists (new_geometry sh a' m None 12). split.
  - unfold sub_single. cbn [item_polys]. rewrite B, D1. cbn [filter_non_polygons bind]. rewrite C, M, T. reflexivity.
  - split; [exact S|]. split; [exact I'|]. apply cut_new; try assumption. eapply same_trans; eassumption.
Qed.
Lemma sub_members sh so b bar st st' i : cuts so -> Forall2 is_cut st (members_of i) -> Forall2 (cuts_to b) st st' -> gm_poly bar = mkPoly b [] -> solid b ->
  exists i', geom_sub sh so i (ISingle bar) = Ok i' /\ Forall2 is_cut st' (members_of i').
Proof.
  intros U F K B G. destruct i as [g|c]; cbn [members_of geom_sub] in *.
  - inversion F as [|s ? ? ? H1 H2]; subst. inversion H2; subst. inversion K as [|? s' ? ? K1 K2]; subst. inversion K2; subst. destruct (sub_one sh so s s' g bar b U H1 K1 B G) as (g' & E & Q). exists (ISingle g'). split; [exact E|]. constructor; [exact Q|constructor].
  - assert (L : exists gs, map_result (fun g => sub_single sh so g (ISingle bar)) (cp_geoms c) = Ok (map ISingle gs) /\ Forall2 is_cut st' gs).
    { revert st' K. induction F as [|s g st gs H F IH]; intros st' K; inversion K as [|? s' ? st2 K1 K2]; subst; [exists []; split; [reflexivity|constructor]|].
      destruct (IH _ K2) as (gs' & E & Q). destruct (sub_one sh so s s' g bar b U H K1 B G) as (g' & E' & Q'). exists (g' :: gs'). cbn [map_result]. rewrite E', E. split; [reflexivity|constructor; assumption]. }
    destruct L as (gs & E & Q). rewrite E. cbn [bind]. eexists. split; [reflexivity|]. cbn [members_of]. rewrite new_members, map_map. replace (concat (map (fun x => members_of (ISingle x)) gs)) with gs; [exact Q|].
    clear. induction gs as [|g gs IH]; [reflexivity|]. cbn [map members_of concat app]. f_equal. exact IH.
Qed.
Lemma insert_members sh so b bar m st st' i : cuts so -> Forall2 is_cut st (members_of i) -> Forall2 (cuts_to b) st st' -> is_cut (b, m, []) bar -> gm_poly bar = mkPoly b [] ->
  exists c, insert_bar sh so i bar = Ok (ICompound c) /\ Forall2 is_cut (st' ++ [(b, m, [])]) (cp_geoms c).
Proof.
  intros U F K Q B. destruct (sub_members sh so b bar st st' i U F K B) as (i' & E & F'); [apply (proj1 Q)|]. unfold insert_bar. rewrite E. cbn [bind]. eexists. split; [reflexivity|].
  unfold add_geometry. rewrite new_members. cbn [map concat members_of]. rewrite app_nil_r. apply Forall2_app; [exact F'|]. constructor; [exact Q|constructor].
Qed.
