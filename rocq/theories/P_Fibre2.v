(** Proofs about the export of fibre sections: text. *)
From Coq Require Import Decimal DecimalString DecimalZ Reals String Ascii List Bool Arith ZArith Lia.
From Verif Require Import Base M_Fea M_Section M_Init M_Solver M_Fibre S_Fibre.
Import ListNotations.
Local Open Scope string_scope.

Lemma app_assoc_s (a b c : string) : (a ++ b) ++ c = a ++ b ++ c. Proof. induction a; cbn; [reflexivity|]. rewrite IHa. reflexivity. Qed.
Lemma app_nil_s (a : string) : a ++ "" = a. Proof. induction a; cbn; [reflexivity|]. rewrite IHa. reflexivity. Qed.
Lemma app_length_s (a b : string) : String.length (a ++ b) = (String.length a + String.length b)%nat. Proof. induction a; cbn; [reflexivity|]. rewrite IHa. reflexivity. Qed.
Lemma joined_app l m : joined (l ++ m) = joined l ++ joined m. Proof. induction l; cbn; [reflexivity|]. unfold joined in *. cbn. rewrite IHl, app_assoc_s. reflexivity. Qed.

(** ** replacement *)
Fixpoint free (c : ascii) (s : string) : Prop := match s with "" => True | String d r => d <> c /\ free c r end.
Lemma prefix_ok w s : String.prefix w s = true -> exists r, s = w ++ r.
Proof.
  revert s. induction w as [|c w IH]; intros s; [exists s; reflexivity|]. destruct s as [|d s]; cbn; [discriminate|]. destruct (ascii_dec c d) as [<-|]; [|discriminate]. intros H. apply IH in H as [r ->]. exists r. reflexivity.
Qed.
Lemma prefix_app w r : String.prefix w (w ++ r) = true.
Proof. induction w as [|c w IH]; [destruct r; reflexivity|]. cbn. destruct (ascii_dec c c); [exact IH|contradiction]. Qed.
Lemma prefix_sep w a c b : free c w -> String.prefix w (a ++ String c b) = String.prefix w a.
Proof.
  revert a. induction w as [|d w IH]; intros a; [destruct a; reflexivity|]. intros [N F]. destruct a as [|e a]; cbn.
  - destruct (ascii_dec d c); [contradiction|reflexivity].
  - destruct (ascii_dec d e); [apply IH, F|reflexivity].
Qed.
Lemma replace_from_sep w r c b : free c w -> w <> "" -> forall a k, (k <= String.length a)%nat -> replace_from w r k (a ++ String c b) = replace_from w r k a ++ String c (replace_from w r 0 b).
Proof.
  intros F N. induction a as [|d a IH]; intros k K.
  - cbn in K. assert (k = 0)%nat as -> by lia. change ("" ++ String c b) with (String c b). cbn [replace_from]. pose proof (prefix_sep w "" c b F) as P. cbn [append] in P. rewrite P. destruct w; [contradiction|]. reflexivity.
  - cbn [append replace_from]. destruct k as [|k].
    + pose proof (prefix_sep w (String d a) c b F) as P. cbn [append] in P. rewrite P. destruct (String.prefix w (String d a)) eqn:E.
      * rewrite IH; [rewrite app_assoc_s; reflexivity|]. apply prefix_ok in E as [x E]. apply (f_equal String.length) in E. rewrite app_length_s in E. cbn [String.length] in E. destruct w; [contradiction|]. cbn [String.length] in *. lia.
      * cbn [append]. rewrite IH by lia. reflexivity.
    + cbn [String.length] in K. apply IH. lia.
Qed.
Lemma replace_sep w r a c b : free c w -> w <> "" -> replace w r (a ++ String c b) = replace w r a ++ String c (replace w r b).
Proof. intros F N. unfold replace. destruct w; [contradiction|]. apply replace_from_sep; auto. lia. Qed.
Lemma replace_absent w r s : w <> "" -> ~ occurs w s -> replace w r s = s.
Proof.
  intros N O. unfold replace. destruct w as [|c w]; [contradiction|]. induction s as [|d s IH]; [reflexivity|]. cbn [replace_from].
  destruct (String.prefix (String c w) (String d s)) eqn:E; [destruct O; apply prefix_ok in E as [x E]; exists "", x; exact E|]. f_equal. apply IH. intros (a & b & E'). apply O. exists (String d a), b. rewrite E'. reflexivity.
Qed.
Lemma skip_all w r s : replace_from w r (String.length s) s = "".
Proof. induction s; cbn; auto. Qed.
Lemma replace_itself w r : w <> "" -> replace w r w = r.
Proof.
  intros N. unfold replace. destruct w as [|c w]; [contradiction|]. cbn [replace_from]. pose proof (prefix_app (String c w) "") as P. rewrite app_nil_s in P. rewrite P. cbn [String.length]. rewrite Nat.sub_succ, Nat.sub_0_r, skip_all. apply app_nil_s.
Qed.
Lemma occurs_itself w : occurs w w. Proof. exists "", "". rewrite app_nil_s. reflexivity. Qed.

(** the words of a name have no white space *)
Fixpoint no_space (s : string) : Prop := match s with "" => True | String c r => is_space c = false /\ no_space r end.
Lemma no_space_app a b : no_space a -> no_space b -> no_space (a ++ b).
Proof. induction a; cbn; [auto|]. intros [H A] B. auto. Qed.
Lemma split_no_space s : forall w, no_space w -> Forall no_space (split_from w s).
Proof.
  induction s as [|c s IH]; intros w W; cbn [split_from].
  - destruct w; repeat constructor; apply W.
  - destruct (is_space c) eqn:E; [|apply IH, no_space_app; [exact W|cbn; auto]]. destruct w; [apply IH; exact I|constructor; [exact W|apply IH; exact I]].
Qed.
Lemma concat_no_space sep l : no_space sep -> Forall no_space l -> no_space (String.concat sep l).
Proof. intros S F. induction F as [|a l A F IH]; [exact I|]. cbn. destruct l; [exact A|]. apply no_space_app; [exact A|]. apply no_space_app; [exact S|exact IH]. Qed.
Lemma dashed_no_space name : no_space (dashed name).
Proof. apply concat_no_space; [cbn; auto|]. apply split_no_space. exact I. Qed.
Lemma no_space_free c w : is_space c = true -> no_space w -> free c w.
Proof. intros S. induction w; cbn; [auto|]. intros [H W]. split; [congruence|auto]. Qed.

(** ** one entry of the dictionary *)
Definition nl : ascii := ascii_of_nat 10.
Definition sp : ascii := " "%char.
Lemma sp_app x : " " ++ x = String sp x. Proof. reflexivity. Qed.
Lemma cell2D_app x : "section Cell2D " ++ x = "section" ++ String sp ("Cell2D" ++ String sp x). Proof. reflexivity. Qed.
Lemma cell3D_app x : "section Cell3D " ++ x = "section" ++ String sp ("Cell3D" ++ String sp x). Proof. reflexivity. Qed.
Lemma cell3DOS_app x : "section Cell3DOS " ++ x = "section" ++ String sp ("Cell3DOS" ++ String sp x). Proof. reflexivity. Qed.
Definition retag (w r : string) (c : cell) : cell := with_material c (if String.eqb w (c_material c) then r else c_material c).
Section Step.
Variables (w r : string) (fmt : R -> string) (k : cell_class).
Hypothesis N : w <> "".
Hypothesis W : no_space w.
Lemma sep_nl a b : replace w r (a ++ String nl b) = replace w r a ++ String nl (replace w r b).
Proof. apply replace_sep; [apply no_space_free; [reflexivity|exact W]|exact N]. Qed.
Lemma sep_sp a b : replace w r (a ++ String sp b) = replace w r a ++ String sp (replace w r b).
Proof. apply replace_sep; [apply no_space_free; [reflexivity|exact W]|exact N]. Qed.
Lemma material_step c : c_material c = w \/ ~ occurs w (c_material c) -> replace w r (c_material c) = c_material (retag w r c).
Proof.
  intros H. cbn [retag with_material c_material]. destruct (String.eqb_spec w (c_material c)) as [<-|E]; [apply replace_itself, N|]. destruct H as [H|H]; [congruence|]. apply replace_absent; assumption.
Qed.
Lemma export_line c : export fmt k c = cell_line fmt k c. Proof. destruct k; reflexivity. Qed.
Lemma block_export cells : block fmt k cells = (String.concat newline (map (export fmt k) cells) ++ newline ++ newline)%string.
Proof. unfold block. do 2 f_equal. apply map_ext. intros c. symmetry. apply export_line. Qed.
Lemma export_step c : Forall (fun v => ~ occurs w v) (cell_words fmt k c) -> c_material c = w \/ ~ occurs w (c_material c) -> replace w r (export fmt k c) = export fmt k (retag w r c).
Proof.
  intros F M. apply material_step in M. assert (A : forall v, In v (cell_words fmt k c) -> replace w r v = v) by (intros v I; apply replace_absent; [exact N|]; rewrite Forall_forall in F; apply F, I).
  unfold cell_words in A. destruct k; cbn [List.app] in A; cbn [export].
  - rewrite !cell2D_app, !sp_app. repeat rewrite sep_sp.
    rewrite M, !A by (cbn [In]; tauto). reflexivity.
  - rewrite !cell3D_app, !sp_app. repeat rewrite sep_sp.
    rewrite M, !A by (cbn [In]; tauto). reflexivity.
  - rewrite !cell3DOS_app, !sp_app. repeat rewrite sep_sp.
    rewrite M, !A by (cbn [In]; tauto). reflexivity.
Qed.
Lemma lines_step ls : replace w r (String.concat newline ls) = String.concat newline (map (replace w r) ls).
Proof.
  induction ls as [|a ls IH]; [apply replace_absent; [exact N|]; intros (x & y & E); destruct x; [destruct w; [contradiction|discriminate E]|discriminate E]|].
  cbn [String.concat map]. destruct ls as [|b ls]; [reflexivity|]. change (newline ++ ?x) with (String nl x). rewrite sep_nl, IH. reflexivity.
Qed.
End Step.

(** ** the whole text *)
Lemma text_step w r fmt k top cells : w <> "" -> no_space w -> ~ occurs w top ->
  (forall c, In c cells -> Forall (fun v => ~ occurs w v) (cell_words fmt k c) /\ (c_material c = w \/ ~ occurs w (c_material c))) ->
  replace w r (top ++ newline ++ newline ++ block fmt k cells) = top ++ newline ++ newline ++ block fmt k (map (retag w r) cells).
Proof.
  intros N W T C. rewrite !block_export. assert (E : replace w r "" = "") by (apply replace_absent; [exact N|]; intros (x & y & E); destruct x; [destruct w; [contradiction|discriminate E]|discriminate E]).
  assert (NA : forall x, newline ++ x = String nl x) by reflexivity. rewrite !NA. rewrite sep_nl by assumption. f_equal; [apply replace_absent; assumption|]. f_equal.
  pose proof (sep_nl w r N W "" (String.concat newline (map (export fmt k) cells) ++ String nl newline)) as H. cbn [append] in H. rewrite H, E. cbn [append]. f_equal.
  rewrite sep_nl by assumption. rewrite lines_step by assumption. f_equal.
  - f_equal. rewrite !map_map. apply map_ext_in. intros c I. destruct (C c I). apply export_step; assumption.
  - f_equal. pose proof (sep_nl w r N W "" "") as H2. cbn [append] in H2. change newline with (String nl ""). rewrite H2, E. reflexivity.
Qed.
Lemma words_retag fmt k w r c : cell_words fmt k (retag w r c) = cell_words fmt k c. Proof. destruct k; reflexivity. Qed.
Lemma mapping_all fmt k top l : forall cells, applicable fmt k top cells l ->
  apply_mapping (Some l) (top ++ newline ++ newline ++ block fmt k cells) = top ++ newline ++ newline ++ block fmt k (map (fun c => with_material c (tagged l (c_material c))) cells).
Proof.
  unfold apply_mapping. induction l as [|[name tag] l IH]; intros cells A.
  - cbn [fold_left tagged]. f_equal. f_equal. f_equal. f_equal. transitivity (map (fun c => c) cells); [symmetry; apply map_id|]. apply map_ext. intros []; reflexivity.
  - cbn [fold_left]. destruct (A name tag (or_introl eq_refl)) as (N & T & C & D). rewrite text_step; [|assumption|apply dashed_no_space|assumption|assumption].
    rewrite IH.
    + f_equal. f_equal. f_equal. f_equal. rewrite map_map. apply map_ext_in. intros c I. unfold retag, with_material. cbn [tagged c_tag c_area c_material c_y c_z c_omega c_py c_pz].
      destruct (String.eqb_spec (dashed name) (c_material c)) as [E|E]; [|reflexivity]. f_equal.
      assert (Q : forall m, (forall n t, In (n, t) m -> In (n, t) l) -> tagged m (str_int tag) = str_int tag); [|apply Q; auto].
      intros m. induction m as [|[n t] m IHm]; intros H; [reflexivity|]. cbn [tagged]. destruct (String.eqb_spec (dashed n) (str_int tag)) as [F|F].
      * exfalso. destruct (A n t (or_intror (H n t (or_introl eq_refl)))) as (_ & _ & _ & B). apply (B name tag (or_introl eq_refl)). rewrite <- F. apply occurs_itself.
      * apply IHm. intros n' t' I'. apply H. right. exact I'.
    + intros n t I. destruct (A n t (or_intror I)) as (N' & T' & C' & D'). split; [exact N'|]. split; [exact T'|]. split; [|intros n' t' I'; apply (D' n' t'); right; exact I'].
      intros c Hc. apply in_map_iff in Hc as (c0 & <- & I0). destruct (C' c0 I0) as [F M]. rewrite words_retag. split; [exact F|]. unfold retag, with_material. cbn [c_material].
      destruct (String.eqb_spec (dashed name) (c_material c0)) as [E|E]; [right; apply (D' name tag (or_introl eq_refl))|exact M].
Qed.

(** ** the list of tags *)
Lemma wrap_all max_width start top cells : forall done lines last, joined lines ++ last = start ++ joined (map tag_word done) -> fits max_width start last -> Forall (full_line max_width start done) lines ->
  exists lines' last', fold_left (wrap_step max_width) cells (top ++ joined (map (fun l => l ++ cont) lines), last) = (top ++ joined (map (fun l => l ++ cont) lines'), last') /\
    joined lines' ++ last' = start ++ joined (map tag_word (done ++ cells)) /\ fits max_width start last' /\ Forall (full_line max_width start (done ++ cells)) lines'.
Proof.
  induction cells as [|c cells IH]; intros done lines last J F L.
  - exists lines, last. rewrite List.app_nil_r. auto.
  - cbn [fold_left wrap_step]. fold (tag_word c). replace (done ++ c :: cells)%list with ((done ++ [c]) ++ cells)%list by (rewrite <- List.app_assoc; reflexivity).
    assert (J' : (joined lines ++ last) ++ tag_word c = start ++ joined (map tag_word (done ++ [c])%list)). { rewrite J, map_app, joined_app, app_assoc_s. cbn [map joined fold_right]. rewrite app_nil_s. reflexivity. }
    assert (L' : Forall (full_line max_width start (done ++ [c])%list) lines). { eapply Forall_impl; [|exact L]. intros l (H & a & c' & I & E). split; [exact H|]. exists a, c'. split; [apply in_or_app; left; exact I|exact E]. }
    destruct (max_width <? Z.of_nat (String.length (last ++ tag_word c)))%Z eqn:Q.
    + apply Z.ltb_lt in Q. replace ((top ++ joined (map (fun l => l ++ cont) lines)) ++ (last ++ tag_word c) ++ backslash ++ newline) with (top ++ joined (map (fun l => l ++ cont) (lines ++ [(last ++ tag_word c)%string])%list)).
      * apply IH; [|right; right; reflexivity|].
        -- rewrite joined_app. cbn [joined fold_right]. rewrite !app_nil_s. rewrite <- J', app_assoc_s. reflexivity.
        -- apply Forall_app. split; [exact L'|]. constructor; [|constructor]. split; [exact Q|]. exists last, c. split; [apply in_or_app; right; left; reflexivity|auto].
      * rewrite map_app, joined_app. cbn [map joined fold_right]. rewrite app_nil_s, !app_assoc_s. reflexivity.
    + apply Z.ltb_ge in Q. apply IH; [|left; exact Q|exact L']. rewrite <- J', app_assoc_s. reflexivity.
Qed.
Lemma fits_or max_width start a : fits max_width start a -> (Z.of_nat (String.length a) <= Z.max max_width (Z.of_nat (String.length start)))%Z.
Proof. intros [H|[-> | ->]]; cbn; lia. Qed.

(** ** numbers as text *)
Lemma str_int_inj a b : str_int a = str_int b -> a = b.
Proof.
  unfold str_int. intros H. apply (f_equal NilZero.int_of_string) in H. apply DecimalZ.to_int_inj.
  assert (K : forall z, Z.to_int z <> Pos Nil /\ Z.to_int z <> Neg Nil).
  { intros z. split; intros E; [|]; apply (f_equal Z.of_int) in E as E'; rewrite DecimalZ.of_to in E'; cbn in E'; subst z; discriminate E. }
  destruct (K a), (K b). rewrite !NilZero.isi in H by assumption. congruence.
Qed.
