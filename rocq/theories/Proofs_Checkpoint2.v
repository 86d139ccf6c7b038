(** For C62: loading a state dict. *)
From Coq Require Import Reals ZArith String List Bool Lia.
From Verif Require Import Base Model_Groups Model_Rep Model_FieldType Proofs_FieldType Model_GSpace Model_Expansion Model_Conv Model_ConvT Model_Checkpoint Spec_Checkpoint Proofs_Checkpoint.
Import ListNotations.
Open Scope R_scope.

Section Load.
Context {G B : Type}.
Notation smod := (smod G B).
Notation net := (net G B).

Definition find_entry (k : string) (l : list (string * tval)) : option tval := option_map snd (find (fun e => String.eqb (fst e) k) l).
Lemma find_app {A} (f : A -> bool) l l' : find f (l ++ l') = match find f l with Some a => Some a | None => find f l' end.
Proof. induction l as [|a l IH]; cbn; [reflexivity|]. destruct (f a); auto. Qed.
Lemma find_key_app k d d' : find_key k (d ++ d') = match find_key k d with Some a => Some a | None => find_key k d' end.
Proof. unfold find_key. rewrite find_app. destruct (find _ d); reflexivity. Qed.
Lemma find_part s s' k l : find_key (s, k) (map (fun e : string * tval => ((s', fst e), snd e)) l) = if String.eqb s' s then find_entry k l else None.
Proof.
  unfold find_key, find_entry. induction l as [|e l IH]; cbn [map find]; [destruct (String.eqb s' s); reflexivity|]. unfold key_eqb at 1. cbn [fst snd].
  destruct (String.eqb s' s); cbn [andb]; [|exact IH]. destruct (String.eqb (fst e) k); [reflexivity|exact IH].
Qed.
Lemma find_absent s k (n : net) : ~ In s (map fst n) -> find_key (s, k) (state_dict n) = None.
Proof.
  unfold state_dict. induction n as [|a n IH]; cbn [map flat_map In]; intros H; [reflexivity|]. rewrite find_key_app, find_part. destruct (String.eqb_spec (fst a) s) as [E|_]; [tauto|]. apply IH. tauto.
Qed.
Lemma find_state s u k (n : net) : NoDup (map fst n) -> In (s, u) n -> find_key (s, k) (state_dict n) = find_entry k (entries u).
Proof.
  unfold state_dict. induction n as [|a n IH]; cbn [map flat_map In]; intros N H; [tauto|]. inversion N as [|? ? N1 N2]; subst. rewrite find_key_app, find_part. destruct H as [->|H].
  - cbn [fst snd]. rewrite String.eqb_refl. destruct (find_entry k (entries u)) eqn:E; [reflexivity|]. exact (find_absent s k n N1).
  - destruct (String.eqb_spec (fst a) s) as [E|_]; [|apply IH; auto]. exfalso. apply N1. rewrite E. apply (in_map fst) in H. exact H.
Qed.

(** ** what is copied into one layer *)
Definition from (u : smod) (k : string) (old : tval) : tval := match find_entry k (entries u) with Some v => if same_shape v old then v else old | None => old end.
(** the parameters of a layer, and everything that is stored in a layer of another kind *)
Definition params (u : smod) : list (list R) := match u with UConv _ st | UConvT _ st => [cs_w st; cs_b st] | UPlain _ _ vals => vals end.
Definition mode_of (u : smod) : bool := match u with UConv _ st | UConvT _ st => cs_training st | UPlain _ tr _ => tr end.

Lemma nums_shape l l' : length l = length l' -> same_shape (nums l) (nums l') = true.
Proof. intros E. cbn. rewrite E, Nat.eqb_refl. reflexivity. Qed.
Lemma find_weights hb sh n st : find_entry "weights" (cstate_entries hb sh n st) = Some (nums (cs_w st)).
Proof. destruct hb; reflexivity. Qed.
Lemma find_bias hb sh n st : find_entry "bias" (cstate_entries hb sh n st) = if hb then Some (nums (cs_b st)) else None.
Proof. destruct hb; [reflexivity|]. unfold cstate_entries. destruct (cs_filter st), (cs_bias st) as [[v|]|]; reflexivity. Qed.
Lemma find_filter hb sh n st : find_entry "filter" (cstate_entries hb sh n st) = option_map (TFilter (fst (fst sh)) (snd (fst sh)) (snd sh)) (cs_filter st).
Proof. unfold cstate_entries. destruct hb, (cs_filter st), (cs_bias st) as [[v|]|]; reflexivity. Qed.
Lemma find_ebias hb sh n st : find_entry "expanded_bias" (cstate_entries hb sh n st) = match cs_bias st with Some (Some v) => Some (TVec n v) | _ => None end.
Proof. unfold cstate_entries. destruct hb, (cs_filter st), (cs_bias st) as [[v|]|]; reflexivity. Qed.

Lemma plain_find (names : list (string * list nat)) (vals : list (list R)) nm v : NoDup (map fst names) -> In (nm, v) (combine names vals) ->
  find_entry (fst nm) (map (fun nv => (fst (fst nv), TTensor (snd (fst nv)) (snd nv))) (combine names vals)) = Some (TTensor (snd nm) v).
Proof.
  revert vals. unfold find_entry. induction names as [|a names IH]; intros [|w vals] N H; cbn [combine map find In] in *; try tauto. inversion N as [|? ? N1 N2]; subst. cbn [fst snd]. destruct H as [E|H].
  - injection E as -> ->. rewrite String.eqb_refl. reflexivity.
  - destruct (String.eqb_spec (fst a) (fst nm)) as [E|_]; [|apply IH; auto]. exfalso. apply N1. rewrite E. apply in_combine_l in H. apply in_map. exact H.
Qed.
Lemma plain_copy (names : list (string * list nat)) (vals vals' : list (list R)) (look : string -> tval -> tval) :
  Forall2 (fun nv v => length v = volume (snd nv)) names vals -> Forall2 (fun nv v => length v = volume (snd nv)) names vals' ->
  (forall nm v, In (nm, v) (combine names vals) -> forall l, length l = length v -> look (fst nm) (TTensor (snd nm) l) = TTensor (snd nm) v) ->
  map (fun nv => as_nums (look (fst (fst nv)) (TTensor (snd (fst nv)) (snd nv))) (snd nv)) (combine names vals') = vals.
Proof.
  intros F. revert vals'. induction F as [|nm v names vals E F IH]; intros vals' F' L; inversion F' as [|? v' ? vs E' F'']; subst; cbn [combine map]; [reflexivity|]. f_equal.
  - cbn [fst snd]. rewrite (L nm v) by (cbn; auto; congruence). reflexivity.
  - apply IH; [exact F''|]. intros nm0 v0 H0. apply L. right. exact H0.
Qed.
Lemma cstate_params hb sh n sh' n' ph ph' dim nb st st' (look : string -> tval -> tval) : cstate_ok ph dim nb hb st -> cstate_ok ph' dim nb hb st' -> (hb = false -> nb = 0%nat) ->
  (forall k old, look k old = match find_entry k (cstate_entries hb sh n st) with Some v => if same_shape v old then v else old | None => old end) ->
  cs_w (cstate_load hb sh' n' look st') = cs_w st /\ cs_b (cstate_load hb sh' n' look st') = cs_b st.
Proof.
  intros (A1 & A2 & _) (B1 & B2 & _) HB L. unfold cstate_load. cbn [cs_w cs_b]. rewrite !L, find_weights, find_bias. rewrite nums_shape by congruence. split; [reflexivity|]. destruct hb.
  - rewrite nums_shape by congruence. reflexivity.
  - rewrite HB in A2, B2 by reflexivity. destruct (cs_b st), (cs_b st'); try discriminate. reflexivity.
Qed.
Lemma bias_none {A} (o : option (list A)) : some o = false -> match o with Some l => length l | None => 0%nat end = 0%nat.
Proof. destruct o; [discriminate|reflexivity]. Qed.
Lemma copy_params ph ph' (u u' : smod) look : same_module u u' -> inv ph u -> inv ph' u' -> (forall k old, look k old = from u k old) ->
  same_module u (put_entries look u') /\ params (put_entries look u') = params u /\ mode_of (put_entries look u') = mode_of u'.
Proof.
  intros M I I' L. destruct u as [m st|m st|p tr vals], u' as [m' st'|m' st'|p' tr' vals']; cbn [same_module] in M; try contradiction; subst; cbn [inv put_entries params mode_of same_module] in *; (split; [reflexivity|]).
  - destruct (cstate_params _ (conv_fshape m' (cs_training st)) (ct_size (cv_out m')) (conv_fshape m' (cs_training st')) (ct_size (cv_out m')) ph ph' _ _ st st' look I I' (bias_none _) L) as [-> ->]. auto.
  - destruct (cstate_params _ (tconv_fshape m' (cs_training st)) (ct_size (tc_out m')) (tconv_fshape m' (cs_training st')) (ct_size (tc_out m')) ph ph' _ _ st st' look I I' (bias_none _) L) as [-> ->]. auto.
  - destruct I as (_ & S & N & _), I' as (_ & S' & _). split; [|reflexivity]. apply plain_copy; auto. intros nm v H l E. rewrite L. unfold from. cbn [entries]. rewrite (plain_find _ _ nm v N H). cbn. rewrite nat_list_eqb_refl, E, Nat.eqb_refl. reflexivity.
Qed.
(** in the same phase everything is copied *)
Lemma cstate_all hb sh n ph dim nb st st' (look : string -> tval -> tval) : cstate_ok ph dim nb hb st -> cstate_ok ph dim nb hb st' -> (hb = false -> nb = 0%nat) ->
  (forall k old, look k old = match find_entry k (cstate_entries hb sh n st) with Some v => if same_shape v old then v else old | None => old end) -> cstate_load hb sh n look st' = st.
Proof.
  intros A A' HB L. destruct (cstate_params hb sh n sh n ph ph dim nb st st' look A A' HB L) as [P1 P2]. destruct A as (_ & _ & A), A' as (_ & _ & A').
  assert (K : cs_training st = cs_training st' /\ (cs_filter (cstate_load hb sh n look st') = cs_filter st) /\ (cs_bias (cstate_load hb sh n look st') = cs_bias st)).
  { assert (Q : forall t, (cs_training st = t /\ (exists f, cs_filter st = Some f) /\ (if hb then exists v, cs_bias st = Some (Some v) else cs_bias st = Some None)) ->
      (cs_training st' = t /\ (exists f, cs_filter st' = Some f) /\ (if hb then exists v, cs_bias st' = Some (Some v) else cs_bias st' = Some None)) ->
      cs_training st = cs_training st' /\ (cs_filter (cstate_load hb sh n look st') = cs_filter st) /\ (cs_bias (cstate_load hb sh n look st') = cs_bias st)).
    { intros t (Q1 & [f Q2] & Q3) (Q1' & [f' Q2'] & Q3'). split; [congruence|]. unfold cstate_load. cbn [cs_filter cs_bias]. rewrite Q2', L, find_filter, Q2. cbn [option_map same_shape]. rewrite !Nat.eqb_refl. cbn [andb as_filter]. split; [reflexivity|].
      destruct hb; [destruct Q3 as [v Q3], Q3' as [v' Q3']; rewrite Q3', L, find_ebias, Q3; cbn [same_shape]; rewrite Nat.eqb_refl; reflexivity|rewrite Q3', Q3; reflexivity]. }
    destruct ph as [[|]|]; [|apply (Q _ A A')|apply (Q _ A A')]. destruct A as (A1 & A2 & A3), A' as (A1' & A2' & A3'). split; [congruence|]. unfold cstate_load. cbn [cs_filter cs_bias]. rewrite A2, A3, A2', A3'. auto. }
  destruct K as (K1 & K2 & K3). destruct st as [tr w b f eb]. cbn [cs_training cs_w cs_b cs_filter cs_bias] in *. destruct (cstate_load hb sh n look st') as [tr' w' b' f' eb'] eqn:C. cbn [cs_w cs_b cs_filter cs_bias] in *.
  assert (tr' = cs_training st') by (apply (f_equal cs_training) in C; symmetry; exact C). congruence.
Qed.
Lemma copy_all ph (u u' : smod) look : same_module u u' -> inv ph u -> inv ph u' -> (forall k old, look k old = from u k old) -> put_entries look u' = u.
Proof.
  intros M I I' L. pose proof (copy_params ph ph u u' look M I I' L) as (_ & P & T). destruct u as [m st|m st|p tr vals], u' as [m' st'|m' st'|p' tr' vals']; cbn [same_module] in M; try contradiction; subst; cbn [inv put_entries params mode_of] in *.
  - assert (E : cs_training st' = cs_training st) by (destruct I as (_ & _ & I), I' as (_ & _ & I'); destruct ph as [[|]|]; destruct I as [-> _], I' as [-> _]; reflexivity). f_equal. rewrite E.
    exact (cstate_all _ _ _ ph _ _ st st' look I I' (bias_none _) L).
  - assert (E : cs_training st' = cs_training st) by (destruct I as (_ & _ & I), I' as (_ & _ & I'); destruct ph as [[|]|]; destruct I as [-> _], I' as [-> _]; reflexivity). f_equal. rewrite E.
    exact (cstate_all _ _ _ ph _ _ st st' look I I' (bias_none _) L).
  - f_equal; [|exact P]. destruct I as [-> _], I' as [-> _]. reflexivity.
Qed.

(** ** whether a load raises *)
Definition clean (strict : bool) (u u' : smod) : Prop :=
  (forall e, In e (entries u') -> match find_entry (fst e) (entries u) with Some v => same_shape v (snd e) = true | None => strict = false end) /\
  (strict = true -> forall e, In e (entries u) -> some (find_entry (fst e) (entries u')) = true).
Lemma existsb_none {A} (f : A -> bool) l : existsb f l = false <-> forall a, In a l -> f a = false.
Proof.
  split.
  - intros H a Ha. destruct (f a) eqn:E; [|reflexivity]. assert (existsb f l = true) by (apply existsb_exists; exists a; auto). congruence.
  - intros H. destruct (existsb f l) eqn:E; [|reflexivity]. apply existsb_exists in E as (a & Ha & E). rewrite H in E by auto. discriminate.
Qed.
Lemma in_state k v (n : net) : In (k, v) (state_dict n) <-> exists u, In (fst k, u) n /\ In (snd k, v) (entries u).
Proof.
  unfold state_dict. rewrite in_flat_map. split.
  - intros ([s u] & H & H'). apply in_map_iff in H' as ([k' v'] & E & H'). injection E as <- ->. exists u. auto.
  - intros (u & H & H'). exists (fst k, u). split; [exact H|]. apply in_map_iff. exists (snd k, v). split; [|exact H']. destruct k; reflexivity.
Qed.
Lemma load_clean strict (n n' : net) : NoDup (map fst n) -> NoDup (map fst n') -> map fst n = map fst n' ->
  (snd (load_state_dict strict (state_dict n) n') = Ok tt <-> forall s u u', In (s, u) n -> In (s, u') n' -> clean strict u u').
Proof.
  intros N N' E. unfold load_state_dict. cbn [snd]. set (mismatch := existsb _ (state_dict n')). set (missing := existsb (fun e => negb (some (find_key (fst e) (state_dict n)))) (state_dict n')). set (unexpected := existsb _ (state_dict n)).
  assert (MM : mismatch = false <-> forall s u u', In (s, u) n -> In (s, u') n' -> forall e, In e (entries u') -> match find_entry (fst e) (entries u) with Some v => same_shape v (snd e) = true | None => True end).
  { unfold mismatch. rewrite existsb_none. split.
    - intros H s u u' Hu Hu' [k v] He. specialize (H ((s, k), v)). rewrite in_state in H. specialize (H (ex_intro _ u' (conj Hu' He))). cbn [fst snd] in *. rewrite (find_state s u k n N Hu) in H. destruct (find_entry k (entries u)); [|exact I]. destruct (same_shape t v); [reflexivity|discriminate].
    - intros H [[s k] v] He. apply in_state in He as (u' & Hu' & He). cbn [fst snd] in *. assert (X : exists u, In (s, u) n). { apply (in_map fst) in Hu'. rewrite <- E in Hu'. apply in_map_iff in Hu' as ([s0 u] & E0 & Hu). cbn in E0. subst s0. exists u. exact Hu. }
      destruct X as [u Hu]. rewrite (find_state s u k n N Hu). specialize (H s u u' Hu Hu' _ He). cbn [fst snd] in H. destruct (find_entry k (entries u)); [|reflexivity]. rewrite H. reflexivity. }
  assert (MI : missing = false <-> forall s u u', In (s, u) n -> In (s, u') n' -> forall e, In e (entries u') -> some (find_entry (fst e) (entries u)) = true).
  { unfold missing. rewrite existsb_none. split.
    - intros H s u u' Hu Hu' [k v] He. specialize (H ((s, k), v)). rewrite in_state in H. specialize (H (ex_intro _ u' (conj Hu' He))). cbn [fst snd] in *. rewrite (find_state s u k n N Hu) in H. destruct (some (find_entry k (entries u))); [reflexivity|discriminate].
    - intros H [[s k] v] He. apply in_state in He as (u' & Hu' & He). cbn [fst snd] in *. assert (X : exists u, In (s, u) n). { apply (in_map fst) in Hu'. rewrite <- E in Hu'. apply in_map_iff in Hu' as ([s0 u] & E0 & Hu). cbn in E0. subst s0. exists u. exact Hu. }
      destruct X as [u Hu]. rewrite (find_state s u k n N Hu). specialize (H s u u' Hu Hu' _ He). cbn [fst snd] in H. rewrite H. reflexivity. }
  assert (UN : unexpected = false <-> forall s u u', In (s, u) n -> In (s, u') n' -> forall e, In e (entries u) -> some (find_entry (fst e) (entries u')) = true).
  { unfold unexpected. rewrite existsb_none. split.
    - intros H s u u' Hu Hu' [k v] He. specialize (H ((s, k), v)). rewrite in_state in H. specialize (H (ex_intro _ u (conj Hu He))). cbn [fst snd] in *. rewrite (find_state s u' k n' N' Hu') in H. destruct (some (find_entry k (entries u'))); [reflexivity|discriminate].
    - intros H [[s k] v] He. apply in_state in He as (u & Hu & He). cbn [fst snd] in *. assert (X : exists u', In (s, u') n'). { apply (in_map fst) in Hu. rewrite E in Hu. apply in_map_iff in Hu as ([s0 u'] & E0 & Hu'). cbn in E0. subst s0. exists u'. exact Hu'. }
      destruct X as [u' Hu']. rewrite (find_state s u' k n' N' Hu'). specialize (H s u u' Hu Hu' _ He). cbn [fst snd] in H. rewrite H. reflexivity. }
  assert (OK : (if (mismatch || strict && (missing || unexpected))%bool then Err "RuntimeError"%string else Ok tt) = Ok tt <-> mismatch = false /\ (strict = true -> missing = false /\ unexpected = false)).
  { destruct mismatch, strict, missing, unexpected; cbn; split; try discriminate; try (intros [? ?]; discriminate); auto; try (intros [_ H]; destruct (H eq_refl); discriminate); intros _; split; auto; discriminate. }
  rewrite OK, MM, MI, UN. unfold clean. split.
  - intros [H1 H2] s u u' Hu Hu'. split.
    + intros e He. specialize (H1 s u u' Hu Hu' e He). destruct (find_entry (fst e) (entries u)) eqn:F; [exact H1|]. destruct strict; [|reflexivity]. destruct (H2 eq_refl) as [H3 _]. specialize (H3 s u u' Hu Hu' e He). rewrite F in H3. discriminate.
    + intros S e He. destruct (H2 S) as [_ H3]. exact (H3 s u u' Hu Hu' e He).
  - intros H. split.
    + intros s u u' Hu Hu' e He. specialize (proj1 (H s u u' Hu Hu') e He). destruct (find_entry (fst e) (entries u)); auto.
    + intros S. split; intros s u u' Hu Hu' e He.
      * specialize (proj1 (H s u u' Hu Hu') e He). destruct (find_entry (fst e) (entries u)); [reflexivity|]. congruence.
      * exact (proj2 (H s u u' Hu Hu') S e He).
Qed.

(** one layer *)
Lemma cstate_clean strict hb n (shape : bool -> nat * nat * nat) (o k i1 i2 : nat) ph ph' dim nb st st' : (forall t, shape t = (o, if t then i1 else i2, k)) -> cstate_ok ph dim nb hb st -> cstate_ok ph' dim nb hb st' ->
  ((forall e, In e (cstate_entries hb (shape (cs_training st')) n st') -> match find_entry (fst e) (cstate_entries hb (shape (cs_training st)) n st) with Some v => same_shape v (snd e) = true | None => strict = false end) /\
   (strict = true -> forall e, In e (cstate_entries hb (shape (cs_training st)) n st) -> some (find_entry (fst e) (cstate_entries hb (shape (cs_training st')) n st')) = true)) <->
  (ph = ph' \/ if Bool.eqb (has_buffers ph) (has_buffers ph') then i2 = i1 else strict = false).
Proof.
  intros SH (A1 & A2 & A3) (B1 & B2 & B3). rewrite <- !Forall_forall. rewrite !SH.
  assert (W : length (cs_w st) = length (cs_w st')) by congruence. assert (BB : length (cs_b st) = length (cs_b st')) by congruence. clear A1 A2 B1 B2 SH.
  destruct st as [tr w b f eb], st' as [tr' w' b' f' eb']. cbn [cs_training cs_w cs_b cs_filter cs_bias] in *.
  destruct ph as [[|]|], ph' as [[|]|], hb;
    repeat match goal with H : _ /\ _ |- _ => destruct H | H : exists _, _ |- _ => destruct H end; subst; unfold cstate_entries; cbn [cs_training cs_w cs_b cs_filter cs_bias app has_buffers Bool.eqb]; rewrite !Forall_cons_iff; cbn; rewrite ?W, ?BB, ?Nat.eqb_refl, ?andb_true_r; cbn;
    (split; [intros H; repeat match goal with H : _ /\ _ |- _ => destruct H end; try (left; reflexivity); right; auto; try (apply Nat.eqb_eq; auto; fail); try (symmetry; apply Nat.eqb_eq; auto; fail); try (destruct strict; [exfalso|reflexivity]); auto; try discriminate; try match goal with H : true = true -> _ |- _ => specialize (H eq_refl) end; rewrite ?Forall_cons_iff in *; cbn in *; intuition discriminate
           |intros [H|H]; try discriminate H; repeat split; auto; try (intros X; rewrite ?Forall_cons_iff; cbn; repeat split; auto; congruence); try (rewrite H; apply Nat.eqb_refl); try congruence]).
Qed.
Lemma clean_iff strict ph ph' (u u' : smod) : same_module u u' -> inv ph u -> inv ph' u' ->
  (clean strict u u' <-> (is_conv u -> ph = ph' \/ if Bool.eqb (has_buffers ph) (has_buffers ph') then ungrouped u else strict = false)).
Proof.
  intros M I I'. unfold clean. destruct u as [m st|m st|p tr vals], u' as [m' st'|m' st'|p' tr' vals']; cbn [same_module] in M; try contradiction; subst; cbn [inv entries is_conv ungrouped] in *.
  - rewrite (cstate_clean strict _ (ct_size (cv_out m')) (conv_fshape m') (ct_size (cv_out m')) (cv_k m') (ct_size (cv_in m')) (nsum (map rp_size (be_in (cv_exp m')))) ph ph' _ _ st st' (fun t => eq_refl) I I'). tauto.
  - rewrite (cstate_clean strict _ (ct_size (tc_out m')) (tconv_fshape m') (ct_size (tc_in m')) (tc_k m') (ct_size (tc_out m')) (nsum (map rp_size (be_out (tc_exp m')))) ph ph' _ _ st st' (fun t => eq_refl) I I'). tauto.
  - split; [tauto|]. intros _. destruct I as (_ & S & N & _), I' as (_ & S' & _).
    assert (K : forall vals vals' e, Forall2 (fun nv (v : list R) => length v = volume (snd nv)) (pl_names p') vals -> Forall2 (fun nv (v : list R) => length v = volume (snd nv)) (pl_names p') vals' ->
       In e (map (fun nv => (fst (fst nv), TTensor (snd (fst nv)) (snd nv))) (combine (pl_names p') vals')) -> exists v, find_entry (fst e) (map (fun nv => (fst (fst nv), TTensor (snd (fst nv)) (snd nv))) (combine (pl_names p') vals)) = Some v /\ same_shape v (snd e) = true).
    { clear - N. intros vals vals' e F F' H. apply in_map_iff in H as ([nm v'] & <- & H). cbn [fst snd].
      assert (X : exists v, In (nm, v) (combine (pl_names p') vals) /\ length v = length v').
      { clear N. revert vals' F' H. induction F as [|a v names vals E F IH]; intros vals' F' H; inversion F' as [|? v0 ? vs E' F'']; subst; cbn [combine In] in *; [tauto|]. destruct H as [H|H]; [injection H as -> ->; exists v; split; auto; congruence|]. destruct (IH vs F'' H) as (v1 & ? & ?). exists v1. auto. }
      destruct X as (v & Hv & E). exists (TTensor (snd nm) v). split; [exact (plain_find _ _ nm v N Hv)|]. cbn. rewrite nat_list_eqb_refl, E, Nat.eqb_refl. reflexivity. }
    split; [intros e He; destruct (K vals vals' e S S' He) as (v & -> & H); exact H|]. intros _ e He. destruct (K vals' vals e S' S He) as (v & -> & _). reflexivity.
Qed.

(** ** networks *)
Lemma arch_names (n n' : net) : same_architecture n n' -> map fst n = map fst n'.
Proof. intros A. induction A as [|a a' n n' [E _] A IH]; cbn; congruence. Qed.
Lemma arch_at (n n' : net) : same_architecture n n' -> NoDup (map fst n') -> forall s u u', In (s, u) n -> In (s, u') n' -> same_module u u'.
Proof.
  intros A. induction A as [|a a' n n' [E M] A IH]; cbn [map In]; intros N s u u' H H'; [tauto|]. inversion N as [|? ? N1 N2]; subst. destruct H as [->|H], H' as [->|H'].
  - exact M.
  - exfalso. apply N1. cbn [fst] in E. rewrite <- E. apply (in_map fst) in H'. exact H'.
  - exfalso. apply N1. cbn [fst] in E. rewrite <- (arch_names _ _ A). apply (in_map fst) in H. exact H.
  - eapply IH; eauto.
Qed.
Lemma copied_from s u (n : net) : NoDup (map fst n) -> In (s, u) n -> forall k old, copied (state_dict n) s k old = from u k old.
Proof. intros N H k old. unfold copied, from. rewrite (find_state s u k n N H). reflexivity. Qed.
Lemma map_pairs {A} (f : A -> A) (P : A -> A -> Prop) (l l' : list A) : Forall2 P l l' -> (forall a a', In a l -> In a' l' -> P a a' -> f a' = a) -> map f l' = l.
Proof. intros F. induction F as [|a a' l l' H F IH]; intros K; cbn; [reflexivity|]. f_equal; [apply K; cbn; auto|]. apply IH. intros. apply K; cbn; auto. Qed.

Lemma load_same strict ph (n n' : net) : netinv ph n -> netinv ph n' -> same_architecture n n' -> load_state_dict strict (state_dict n) n' = (n, Ok tt).
Proof.
  intros [N I] [N' I'] A. rewrite Forall_forall in I, I'. rewrite (surjective_pairing (load_state_dict strict (state_dict n) n')). f_equal.
  - unfold load_state_dict. cbn [fst]. apply (map_pairs _ _ _ _ A). intros [s u] [s' u'] Hu Hu' [E M]. cbn [fst snd] in *. subst s'. f_equal. apply (copy_all ph u u' _ M (I _ Hu) (I' _ Hu')). apply copied_from; auto.
  - apply (load_clean strict n n' N N' (arch_names _ _ A)). intros s u u' Hu Hu'. apply (clean_iff strict ph ph u u' (arch_at n n' A N' s u u' Hu Hu') (I _ Hu) (I' _ Hu')). auto.
Qed.
Lemma load_raises strict ph ph' (n n' : net) : netinv ph n -> netinv ph' n' -> same_architecture n n' ->
  (snd (load_state_dict strict (state_dict n) n') = Ok tt <-> forall a, In a n -> is_conv (snd a) -> ph = ph' \/ if Bool.eqb (has_buffers ph) (has_buffers ph') then ungrouped (snd a) else strict = false).
Proof.
  intros [N I] [N' I'] A. rewrite Forall_forall in I, I'. rewrite (load_clean strict n n' N N' (arch_names _ _ A)). split.
  - intros H [s u] Hu. assert (X : exists u', In (s, u') n'). { apply (in_map fst) in Hu. rewrite (arch_names _ _ A) in Hu. apply in_map_iff in Hu as ([s0 u'] & E0 & Hu'). cbn in E0. subst s0. exists u'. exact Hu'. }
    destruct X as [u' Hu']. exact (proj1 (clean_iff strict ph ph' u u' (arch_at n n' A N' s u u' Hu Hu') (I _ Hu) (I' _ Hu')) (H s u u' Hu Hu')).
  - intros H s u u' Hu Hu'. exact (proj2 (clean_iff strict ph ph' u u' (arch_at n n' A N' s u u' Hu Hu') (I _ Hu) (I' _ Hu')) (H _ Hu)).
Qed.
Lemma snd_load strict d (n : net) : snd (load_state_dict strict d n) = Ok tt \/ snd (load_state_dict strict d n) = Err "RuntimeError"%string.
Proof. unfold load_state_dict. cbn [snd]. match goal with |- context [if ?b then _ else _] => destruct b end; auto. Qed.

(** ** after train() the buffers do not matter *)
Lemma unit_train_eq ph ph' (u u' : smod) : same_module u u' -> inv ph u -> inv ph' u' -> params u' = params u -> smod_train true u' = smod_train true u.
Proof.
  intros M I I' P. destruct u as [m st|m st|p tr vals], u' as [m' st'|m' st'|p' tr' vals']; cbn [same_module] in M; try contradiction; subst; cbn [smod_train params inv] in *.
  - injection P as P1 P2. unfold conv_train. rewrite P1, P2. reflexivity.
  - injection P as P1 P2. unfold tconv_train. rewrite P1, P2. reflexivity.
  - rewrite P. reflexivity.
Qed.
Lemma rmap_pairs {A C} (f : A -> result C) (P : A -> A -> Prop) l l' : Forall2 P l l' -> (forall a a', In a l -> In a' l' -> P a a' -> f a' = f a) -> rmap f l' = rmap f l.
Proof.
  intros F. induction F as [|a a' l l' H F IH]; intros K; cbn; [reflexivity|]. rewrite (K a a') by (cbn; auto). destruct (f a); [|reflexivity]. cbn. rewrite IH; [reflexivity|]. intros. apply K; cbn; auto.
Qed.
Lemma load_pairs strict ph ph' (n n' : net) : netinv ph n -> netinv ph' n' -> same_architecture n n' ->
  Forall2 (fun a a' => fst a = fst a' /\ same_module (snd a) (snd a') /\ params (snd a') = params (snd a) /\ inv ph (snd a) /\ inv ph' (snd a')) n (fst (load_state_dict strict (state_dict n) n')).
Proof.
  intros [N I] [N' I'] A. rewrite Forall_forall in I, I'. unfold load_state_dict. cbn [fst].
  assert (K : forall m m' : net, Forall2 (fun a a' => fst a = fst a' /\ same_module (snd a) (snd a')) m m' -> (forall a, In a m -> In a n) -> (forall a, In a m' -> In a n') ->
    Forall2 (fun a a' => fst a = fst a' /\ same_module (snd a) (snd a') /\ params (snd a') = params (snd a) /\ inv ph (snd a) /\ inv ph' (snd a')) m (map (fun a => (fst a, put_entries (copied (state_dict n) (fst a)) (snd a))) m')).
  { intros m m' F. induction F as [|[s u] [s' u'] m m' [E M] F IH]; intros H H'; cbn [map]; [constructor|]. cbn [fst snd] in *. subst s'. constructor; [|apply IH; intros; [apply H|apply H']; cbn; auto]. cbn [fst snd].
    assert (Hu : In (s, u) n) by (apply H; cbn; auto). assert (Hu' : In (s, u') n') by (apply H'; cbn; auto).
    destruct (copy_params ph ph' u u' (copied (state_dict n) s) M (I _ Hu) (I' _ Hu') (copied_from s u n N Hu)) as (K1 & K2 & _). repeat split; auto; [exact (I _ Hu)|]. apply put_inv; [apply copied_keeps|exact (I' _ Hu')]. }
  exact (K n n' A (fun _ h => h) (fun _ h => h)).
Qed.
Lemma load_train strict ph ph' (n n' : net) : netinv ph n -> netinv ph' n' -> same_architecture n n' -> train true (fst (load_state_dict strict (state_dict n) n')) = train true n.
Proof.
  intros I I' A. unfold train. apply (rmap_pairs _ _ _ _ (load_pairs strict ph ph' n n' I I' A)). intros [s u] [s' u'] _ _ (E & M & P & Q & Q'). cbn [fst snd] in *. subst s'. rewrite (unit_train_eq ph ph' u u' M Q Q' P). reflexivity.
Qed.
Lemma unit_eval_eq ph ph' (u u' : smod) : ph' <> Some false -> same_module u u' -> inv ph u -> inv ph' u' -> params u' = params u -> smod_train false u' = rbind (smod_train true u) (smod_train false).
Proof.
  intros T M I I' P. destruct u as [m st|m st|p tr vals], u' as [m' st'|m' st'|p' tr' vals']; cbn [same_module] in M; try contradiction; subst; cbn [smod_train params inv] in *.
  - injection P as P1 P2. assert (E : cs_training st' = true) by (destruct I' as (_ & _ & I'); destruct ph' as [[|]|]; try congruence; destruct I' as [-> _]; reflexivity). unfold conv_train. rewrite E, P1, P2. cbn [rbind smod_train]. reflexivity.
  - injection P as P1 P2. assert (E : cs_training st' = true) by (destruct I' as (_ & _ & I'); destruct ph' as [[|]|]; try congruence; destruct I' as [-> _]; reflexivity). unfold tconv_train. rewrite E, P1, P2. cbn [rbind smod_train]. reflexivity.
  - rewrite P. reflexivity.
Qed.
Lemma train_total (n : net) : exists m, train true n = Ok m /\ Forall2 (fun a b => fst a = fst b /\ smod_train true (snd a) = Ok (snd b)) n m.
Proof.
  unfold train. induction n as [|[s u] n (m & E & F)]; [exists []; split; [reflexivity|constructor]|]. cbn [rmap fst snd].
  assert (X : exists v, smod_train true u = Ok v) by (destruct u; cbn; eauto). destruct X as [v X]. rewrite X. cbn [rbind]. rewrite E. cbn [rbind]. exists ((s, v) :: m). split; [reflexivity|]. constructor; auto.
Qed.
Lemma load_eval strict ph ph' (n n' : net) : ph' <> Some false -> netinv ph n -> netinv ph' n' -> same_architecture n n' -> train false (fst (load_state_dict strict (state_dict n) n')) = rbind (train true n) (train false).
Proof.
  intros T I I' A. destruct (train_total n) as (m & E & F). rewrite E. cbn [rbind]. unfold train. pose proof (load_pairs strict ph ph' n n' I I' A) as L. clear E I I' A. revert L. generalize (fst (load_state_dict strict (state_dict n) n')). clear n'. induction F as [|[s u] [s0 v] n m [E H] F IH]; intros l L; inversion L as [|? [s' u'] ? l' (E' & M & P & Q & Q') L']; subst; [reflexivity|]. cbn [rmap fst snd] in *. subst.
  rewrite (unit_eval_eq ph ph' u u' T M Q Q' P), H. cbn [rbind]. rewrite (IH _ L'). reflexivity.
Qed.

(** in training mode the buffers are not read *)
Definition twin (a a' : string * smod) : Prop := fst a = fst a' /\ same_module (snd a) (snd a') /\ params (snd a') = params (snd a) /\ mode_of (snd a) = true /\ mode_of (snd a') = true.
Lemma unit_forward_eq (s : string) (u u' : smod) x : twin (s, u) (s, u') ->
  match smod_forward u x, smod_forward u' x with Ok (y, v), Ok (y', v') => y = y' /\ twin (s, v) (s, v') | Err e, Err e' => e = e' | _, _ => False end.
Proof.
  intros (_ & M & P & T & T'). cbn [fst snd] in *. destruct u as [m st|m st|p tr vals], u' as [m' st'|m' st'|p' tr' vals']; cbn [same_module] in M; try contradiction; subst; cbn [smod_forward params mode_of] in *.
  - unfold conv_forward, used_params. rewrite T, T'. injection P as P1 P2. rewrite P1, P2. match goal with |- context [rbind ?r _] => destruct r as [y|e] end; cbn [rbind]; [|reflexivity]. split; [reflexivity|]. repeat split; cbn; congruence.
  - unfold tconv_forward, used_params_t. rewrite T, T'. injection P as P1 P2. rewrite P1, P2. match goal with |- context [rbind ?r _] => destruct r as [y|e] end; cbn [rbind]; [|reflexivity]. split; [reflexivity|]. repeat split; cbn; congruence.
  - subst. destruct (pl_forward p' true vals x) as [[y w]|e]; cbn; [|reflexivity]. repeat split.
Qed.
Lemma forward_twins (n n' : net) x : Forall2 twin n n' -> rbind (forward n x) (fun y => Ok (fst y)) = rbind (forward n' x) (fun y => Ok (fst y)).
Proof.
  intros F. revert x. induction F as [|[s u] [s' u'] n n' T F IH]; intros x; [reflexivity|]. assert (s = s') by apply T. subst s'. cbn [forward fst snd]. pose proof (unit_forward_eq s u u' x T) as H.
  destruct (smod_forward u x) as [[y v]|e], (smod_forward u' x) as [[y' v']|e']; try contradiction; [|rewrite H; reflexivity]. destruct H as [<- _]. cbn [rbind fst snd]. specialize (IH y). destruct (forward n y) as [[z m]|e], (forward n' y) as [[z' m']|e']; cbn in *; congruence.
Qed.
Lemma load_forward strict ph ph' (n n' : net) x : ph' <> Some false -> netinv ph n -> netinv ph' n' -> same_architecture n n' ->
  rbind (forward (fst (load_state_dict strict (state_dict n) n')) x) (fun y => Ok (fst y)) = rbind (train true n) (fun m => rbind (forward m x) (fun y => Ok (fst y))).
Proof.
  intros T I I' A. destruct (train_total n) as (m & E & F). rewrite E. cbn [rbind]. symmetry. apply forward_twins. pose proof (load_pairs strict ph ph' n n' I I' A) as L. clear E I I' A. revert L. generalize (fst (load_state_dict strict (state_dict n) n')). clear n'.
  induction F as [|[s u] [s0 v] n m [E H] F IH]; intros l L; inversion L as [|? [s' u'] ? l' (E' & M & P & Q & Q') L']; subst; constructor; [|exact (IH _ L')]. cbn [fst snd] in *. subst. unfold twin. cbn [fst snd]. split; [reflexivity|].
  assert (MO : mode_of u' = true). { destruct u' as [m' st'|m' st'|p' tr' vals']; cbn [inv mode_of] in *; [destruct Q' as (_ & _ & Q')|destruct Q' as (_ & _ & Q')|destruct Q' as [-> _]]; destruct ph' as [[|]|]; try congruence; try reflexivity; destruct Q' as [-> _]; reflexivity. }
  destruct u as [m0 st|m0 st|p tr vals], u' as [m' st'|m' st'|p' tr' vals']; cbn [same_module] in M; try contradiction; subst; cbn [smod_train conv_train tconv_train rbind] in H; injection H as <-; cbn [same_module params mode_of cs_w cs_b cs_training] in *; repeat split; auto.
Qed.
End Load.
