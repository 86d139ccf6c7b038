(** Orders of the groups, and the fields as blocks of channels. *)
From Coq Require Import ZArith String Ascii List Bool Lia Permutation Sorted.
From Verif Require Import Base Spec_Fields Model_Groups Model_Rep Model_FieldType Model_Utils Model_Modules Model_Fieldwise Spec_Fieldwise
  Proofs_FieldType Proofs_FieldType2 Proofs_Utils Proofs_Modules2 Proofs_Modules3 Proofs_Fieldwise.
Import ListNotations.
Open Scope nat_scope.

(** * Fields as blocks *)
Lemma cut_field {A} fs : forall (d : list A) f, f < length fs -> nth_error (cut (map snd fs) d) f = Some (field fs d f).
Proof.
  induction fs as [|[l n] fs IH]; intros d f H; [cbn in H; lia|]. cbn [map snd cut]. destruct f.
  - cbn [nth_error]. f_equal. unfold field, foff, sub_list. cbn. rewrite Nat.add_0_r, Nat.sub_0_r. reflexivity.
  - cbn [nth_error]. rewrite IH by (cbn in H; lia). f_equal. unfold field. rewrite !foff_cons. cbn [snd]. unfold sub_list.
    rewrite <- (Nat.add_comm (foff fs f)), <- skipn_skipn. f_equal. lia.
Qed.
Lemma cut_len {A} ss : forall d : list A, length (cut ss d) = length ss.
Proof. induction ss; intros d; cbn; congruence. Qed.

(** * Sorting *)
Lemma nodup_app_l {A} (l l' : list A) : NoDup (l ++ l') -> NoDup l.
Proof.
  induction l as [|a l IH]; intros H; [constructor|]. cbn in H. inversion H; subst. constructor; auto.
  intros Hin. apply H2, in_app_iff. auto.
Qed.
Section Sort.
Context {K : Type} (leb eqb : K -> K -> bool).
Definition ltb_of (a b : K) : bool := negb (leb b a).
Hypothesis eqbP : forall a b, reflect (a = b) (eqb a b).
Hypothesis leb_total : forall a b, leb a b = true \/ leb b a = true.
Hypothesis leb_trans : forall a b c, leb a b = true -> leb b c = true -> leb a c = true.
Hypothesis leb_anti : forall a b, leb a b = true -> leb b a = true -> a = b.

Lemma insert_perm a l : Permutation (insert_by leb a l) (a :: l).
Proof. induction l as [|b l IH]; cbn; auto. destruct (leb a b); auto. rewrite IH. constructor. Qed.
Lemma sort_perm l : Permutation (sort_by leb l) l.
Proof. induction l as [|a l IH]; cbn; auto. rewrite insert_perm. auto. Qed.
Lemma insert_sorted a l : StronglySorted (fun x y => leb x y = true) l -> StronglySorted (fun x y => leb x y = true) (insert_by leb a l).
Proof.
  induction l as [|b l IH]; intros H; cbn; [repeat constructor|]. inversion H as [|? ? H1 H2]; subst. destruct (leb a b) eqn:E.
  - constructor; auto. constructor; auto. eapply Forall_impl; [|exact H2]. cbn. intros c Hc. eauto.
  - constructor; auto. apply (Permutation_Forall (Permutation_sym (insert_perm a l))). constructor; auto. destruct (leb_total a b); congruence.
Qed.
Lemma sort_sorted l : StronglySorted (fun x y => leb x y = true) (sort_by leb l).
Proof. induction l as [|a l IH]; cbn; [constructor|]. apply insert_sorted. auto. Qed.

Lemma first_seen_in a l : In a (first_seen eqb l) <-> In a l.
Proof.
  induction l as [|b l IH]; cbn; [reflexivity|]. rewrite filter_In, IH. destruct (eqbP b a) as [->|N]; cbn; intuition congruence.
Qed.
Lemma first_seen_nodup l : NoDup (first_seen eqb l).
Proof.
  induction l as [|b l IH]; cbn; [constructor|]. constructor; [|apply NoDup_filter; auto]. rewrite filter_In. intros [_ H].
  destruct (eqbP b b); [discriminate|congruence].
Qed.
Definition sorted_keys (keys : list K) : list K := sort_by leb (first_seen eqb keys).
Lemma sorted_keys_in a keys : In a (sorted_keys keys) <-> In a keys.
Proof. rewrite <- (first_seen_in a keys). unfold sorted_keys. split; apply Permutation_in; [|symmetry]; apply sort_perm. Qed.
Lemma sorted_keys_nodup keys : NoDup (sorted_keys keys).
Proof. eapply Permutation_NoDup; [symmetry; apply sort_perm|apply first_seen_nodup]. Qed.

Lemma count_in (keys pre : list K) : NoDup pre ->
  nsum (map (fun k => length (filter (eqb k) keys)) pre) = length (filter (fun x => existsb (eqb x) pre) keys).
Proof.
  intros ND. induction keys as [|x keys IH].
  - cbn [filter length]. induction pre; cbn; auto. apply IHpre. inversion ND; auto.
  - cbn [filter]. transitivity (nsum (map (fun k => length (filter (eqb k) keys)) pre) + (if existsb (eqb x) pre then 1 else 0)).
    + clear IH. induction pre as [|k pre IHp]; [reflexivity|]. inversion ND as [|? ? N1 N2]; subst.
      change (nsum (map ?f (k :: pre))) with (f k + nsum (map f pre)). rewrite (IHp N2). cbn [existsb].
      change (nsum (map ?f (k :: pre))) with (f k + nsum (map f pre)).
      destruct (eqbP k x) as [->|NE].
      * destruct (eqbP x x); [|congruence]. cbn [orb length]. assert (existsb (eqb x) pre = false) as ->; [|lia].
        apply not_true_is_false. intros H. apply existsb_exists in H as (y & Hy & Hxy). destruct (eqbP x y); [subst; auto|discriminate].
      * destruct (eqbP x k); [congruence|]. cbn [orb]. lia.
    + rewrite IH. destruct (existsb (eqb x) pre); cbn [length]; lia.
Qed.
Lemma sorted_before keys pre k post : sorted_keys keys = pre ++ k :: post ->
  nsum (map (fun k' => length (filter (eqb k') keys)) pre) = length (filter (fun k' => ltb_of k' k) keys).
Proof.
  intros E. pose proof (sorted_keys_nodup keys) as ND. assert (SS : StronglySorted (fun x y => leb x y = true) (sorted_keys keys)) by apply sort_sorted.
  rewrite E in ND, SS. rewrite count_in.
  - f_equal. apply filter_ext_in. intros x Hx. apply sorted_keys_in in Hx. rewrite E in Hx.
    assert (P : forall y, In y pre -> leb y k = true /\ y <> k).
    { intros y Hy. split.
      - clear -SS Hy. induction pre as [|z pre IH]; [destruct Hy|]. cbn in SS. inversion SS as [|? ? H1 H2]; subst. destruct Hy as [->|Hy]; auto.
        rewrite Forall_forall in H2. apply H2, in_elt.
      - intros ->. apply NoDup_remove_2 in ND. apply ND, in_app_iff. auto. }
    assert (Q : forall y, In y post -> leb k y = true).
    { intros y Hy. clear -SS Hy. induction pre as [|z pre IH]; cbn in SS; inversion SS as [|? ? H1 H2]; subst; auto. rewrite Forall_forall in H2. auto. }
    unfold ltb_of. destruct (existsb (eqb x) pre) eqn:Ex.
    + apply existsb_exists in Ex as (y & Hy & Hxy). destruct (eqbP x y); [subst y|discriminate]. destruct (P x Hy) as [P1 P2].
      destruct (leb k x) eqn:L; [|reflexivity]. elim P2. auto.
    + apply in_app_iff in Hx as [Hx|[->|Hx]].
      * assert (existsb (eqb x) pre = true) by (apply existsb_exists; exists x; split; auto; destruct (eqbP x x); auto). congruence.
      * assert (leb x x = true) as -> by (destruct (leb_total x x); auto). reflexivity.
      * rewrite (Q x Hx). reflexivity.
  - apply nodup_app_l in ND. auto.
Qed.
End Sort.

Lemma leb_total_nat a b : Nat.leb a b = true \/ Nat.leb b a = true.
Proof. rewrite !Nat.leb_le. lia. Qed.
Lemma leb_trans_nat a b c : Nat.leb a b = true -> Nat.leb b c = true -> Nat.leb a c = true.
Proof. rewrite !Nat.leb_le. lia. Qed.
Lemma leb_anti_nat a b : Nat.leb a b = true -> Nat.leb b a = true -> a = b.
Proof. rewrite !Nat.leb_le. lia. Qed.
Lemma pair_leb_iff a b : pair_leb a b = true <-> (fst a < fst b \/ fst a = fst b /\ snd a <= snd b).
Proof. unfold pair_leb. rewrite orb_true_iff, andb_true_iff, Nat.ltb_lt, Nat.eqb_eq, Nat.leb_le. reflexivity. Qed.
Lemma pair_total a b : pair_leb a b = true \/ pair_leb b a = true.
Proof. rewrite !pair_leb_iff. lia. Qed.
Lemma pair_trans a b c : pair_leb a b = true -> pair_leb b c = true -> pair_leb a c = true.
Proof. rewrite !pair_leb_iff. lia. Qed.
Lemma pair_anti a b : pair_leb a b = true -> pair_leb b a = true -> a = b.
Proof. rewrite !pair_leb_iff. destruct a, b; cbn. intros. f_equal; lia. Qed.
Lemma pair_eqbP a b : reflect (a = b) (pair_eqb a b).
Proof.
  unfold pair_eqb. destruct a as [a1 a2], b as [b1 b2]; cbn. destruct (Nat.eqb_spec a1 b1), (Nat.eqb_spec a2 b2); cbn; constructor; congruence.
Qed.

(** * The loop over groups, field by field *)
Lemma label_fields_keys {K} (eqb : K -> K -> bool) (eqbP : forall a b, reflect (a = b) (eqb a b)) (key : K -> string) (kinj : forall a b, key a = key b -> a = b)
  (kf : list (K * nat)) k : count_label (key k) (map (fun p => (key (fst p), snd p)) kf) = length (filter (eqb k) (map fst kf)).
Proof.
  unfold count_label. induction kf as [|[a n] kf IH]; [reflexivity|]. cbn [map filter fst snd]. destruct (String.eqb_spec (key a) (key k)) as [E|N].
  - apply kinj in E. subst a. destruct (eqbP k k); [|congruence]. cbn. rewrite IH. reflexivity.
  - destruct (eqbP k a); [subst; congruence|]. exact IH.
Qed.

Section Grouped.
Context {K A B : Type} (eqb : K -> K -> bool) (key : K -> string) (cin cout : list (string * chan_set)) (nf : K -> nat)
        (op : K -> nat -> list A -> result (list B)) (x : list A) (kf kf' : list (K * nat)).
Context (n n' : K -> nat) (g : K -> nat -> list A -> list B) (order : list K).
Hypothesis eqbP : forall a b, reflect (a = b) (eqb a b).
Hypothesis kinj : forall a b, key a = key b -> a = b.
Notation lab := (fun p : K * nat => (key (fst p), snd p)).
Notation fs := (map lab kf).
Notation fs' := (map lab kf').
Hypothesis Hkeys : map fst kf = map fst kf'.
Hypothesis Hsz : forall k m, In (k, m) kf -> m = n k.
Hypothesis Hsz' : forall k m, In (k, m) kf' -> m = n' k.
Hypothesis Hpos : forall k, In k order -> 0 < n k.
Hypothesis Hord : NoDup order.
Hypothesis Hall : forall k, In k order <-> In k (map fst kf).
Hypothesis Hglen : forall k j b, In k order -> length b = n k -> length (g k j b) = n' k.
Hypothesis LX : length x = nsum (map snd kf).

Lemma fs_snd (l : list (K * nat)) : map snd (map lab l) = map snd l.
Proof. rewrite map_map. reflexivity. Qed.
Lemma fs_fst (l : list (K * nat)) : map fst (map lab l) = map key (map fst l).
Proof. rewrite !map_map. reflexivity. Qed.
Lemma fs_in k m (l : list (K * nat)) : In (key k, m) (map lab l) -> In (k, m) l.
Proof. intros H. apply in_map_iff in H as ([k' m'] & E & H). cbn in E. injection E as E1 E2. apply kinj in E1. subst. auto. Qed.

Lemma grouped_loop (out : list B) : good_index fs (map fst fs) cin -> good_index fs' (map fst fs') cout -> length out = nsum (map snd kf') ->
  (forall pre k post fm bl, order = pre ++ k :: post -> view_fields (n k) fm = Ok bl -> length bl = length (filter (eqb k) (map fst kf)) ->
     op k (nsum (map nf pre)) fm = Ok (concat (map (fun p => g k (nsum (map nf pre) + fst p) (snd p)) (enumerate bl)))) ->
  exists y, group_loop key cin cout nf op x order 0 out = Ok y /\ length y = length out /\
    forall pre k post f m, order = pre ++ k :: post -> nth_error kf f = Some (k, m) ->
      field fs' y f = g k (nsum (map nf pre) + length (filter (eqb k) (firstn f (map fst kf)))) (field fs x f).
Proof.
  intros GI GO LO HOP.
  assert (SUB : forall (l : list (K * nat)), map fst l = map fst kf -> forall s, In s (map key order) -> In s (map fst (map lab l))).
  { intros l E s Hs. rewrite fs_fst, E. apply in_map_iff in Hs as (k & <- & Hk). apply in_map, Hall. auto. }
  assert (CNT : forall k, length (label_fields (key k) 0 fs) = length (filter (eqb k) (map fst kf))).
  { intros k. rewrite <- count_label_fields. apply (label_fields_keys eqb eqbP key kinj). }
  destruct (fieldwise_loop key cin cout nf op x fs fs' n n' g order) with (next := 0) (out := out) as (y & Y1 & Y2 & Y3 & _).
  - intros k m Hk H. apply Hsz. apply fs_in. auto.
  - intros k m Hk H. apply Hsz'. apply fs_in. auto.
  - auto.
  - intros k Hk. f_equal. apply label_fields_same. rewrite !fs_fst. congruence.
  - auto.
  - rewrite fs_snd. auto.
  - apply FinFun.Injective_map_NoDup; auto.
  - intros l Hl. apply GI. apply SUB; auto.
  - intros l Hl. apply GO. apply SUB; auto.
  - rewrite fs_snd. auto.
  - intros pre k post fm bl E V LB. apply HOP with post; auto. rewrite LB. apply CNT.
  - exists y. split; [auto|]. split; [auto|]. intros pre k post f m E Hf.
    assert (Hf' : nth_error fs f = Some (key k, m)) by (rewrite nth_error_map, Hf; reflexivity).
    assert (RK := label_fields_rank (key k) fs 0 f m Hf'). cbn [Nat.add] in RK.
    assert (CF : count_label (key k) (firstn f fs) = length (filter (eqb k) (firstn f (map fst kf)))).
    { rewrite firstn_map, (label_fields_keys eqb eqbP key kinj), firstn_map. reflexivity. }
    rewrite CF in RK. rewrite (Y3 pre k post _ f f E RK); [reflexivity|].
    rewrite <- RK. f_equal. apply label_fields_same. rewrite !fs_fst. congruence.
Qed.
End Grouped.

(** sorted order: the counter is the place of the field *)
Section GroupedSorted.
Context {K A B : Type} (leb eqb : K -> K -> bool) (key : K -> string) (cin cout : list (string * chan_set))
        (op : K -> nat -> list A -> result (list B)) (x : list A) (kf kf' : list (K * nat)).
Context (n n' : K -> nat) (g : K -> nat -> list A -> list B).
Hypothesis eqbP : forall a b, reflect (a = b) (eqb a b).
Hypothesis leb_total : forall a b, leb a b = true \/ leb b a = true.
Hypothesis leb_trans : forall a b c, leb a b = true -> leb b c = true -> leb a c = true.
Hypothesis leb_anti : forall a b, leb a b = true -> leb b a = true -> a = b.
Hypothesis kinj : forall a b, key a = key b -> a = b.
Notation lab := (fun p : K * nat => (key (fst p), snd p)).
Notation fs := (map lab kf).
Notation fs' := (map lab kf').
Hypothesis Hkeys : map fst kf = map fst kf'.
Hypothesis Hsz : forall k m, In (k, m) kf -> m = n k.
Hypothesis Hsz' : forall k m, In (k, m) kf' -> m = n' k.
Hypothesis Hpos : forall k, In k (map fst kf) -> 0 < n k.
Hypothesis Hglen : forall k j b, In k (map fst kf) -> length b = n k -> length (g k j b) = n' k.
Hypothesis LX : length x = nsum (map snd kf).
Notation nfl := (fun k => count_label (key k) fs).

Lemma grouped_sorted (out : list B) : good_index fs (map fst fs) cin -> good_index fs' (map fst fs') cout -> length out = nsum (map snd kf') ->
  (forall k next fm bl, In k (map fst kf) -> view_fields (n k) fm = Ok bl -> length bl = length (filter (eqb k) (map fst kf)) ->
     next + length (filter (eqb k) (map fst kf)) <= length kf ->
     op k next fm = Ok (concat (map (fun p => g k (next + fst p) (snd p)) (enumerate bl)))) ->
  exists y, group_loop key cin cout nfl op x (sorted_keys leb eqb (map fst kf)) 0 out = Ok y /\ length y = length out /\
    forall f k m, nth_error kf f = Some (k, m) -> field fs' y f = g k (place (ltb_of leb) eqb (map fst kf) f) (field fs x f).
Proof.
  intros GI GO LO HOP. pose proof (sorted_keys_in leb eqb eqbP) as SI.
  assert (NFL : forall pre, nsum (map nfl pre) = nsum (map (fun k => length (filter (eqb k) (map fst kf))) pre)).
  { intros pre. f_equal. apply map_ext. intros k. apply (label_fields_keys eqb eqbP key kinj). }
  destruct (grouped_loop eqb key cin cout nfl op x kf kf' n n' g (sorted_keys leb eqb (map fst kf)) eqbP kinj Hkeys Hsz Hsz') with (out := out)
    as (y & Y1 & Y2 & Y3); auto.
  - intros k Hk. apply Hpos, (SI k). auto.
  - apply sorted_keys_nodup. auto.
  - intros k j b Hk. apply Hglen, (SI k). auto.
  - intros pre k post fm bl E V LB. apply HOP; auto.
    + apply (SI k). rewrite E. apply in_elt.
    + rewrite NFL. rewrite <- (map_length fst kf).
      assert (ND := sorted_keys_nodup leb eqb eqbP (map fst kf)). rewrite E in ND.
      assert (ND' : NoDup (pre ++ [k])). { replace (pre ++ k :: post) with ((pre ++ [k]) ++ post) in ND by (rewrite <- app_assoc; reflexivity). eapply nodup_app_l; eauto. }
      assert (X := count_in eqb eqbP (map fst kf) (pre ++ [k]) ND'). rewrite map_app, nsum_app in X. cbn [map] in X.
      change (nsum [length (filter (eqb k) (map fst kf))]) with (length (filter (eqb k) (map fst kf)) + 0) in X. rewrite Nat.add_0_r in X. rewrite X.
      clear. induction (map fst kf) as [|a l IH]; [cbn; lia|]. cbn [filter]. destruct (existsb (eqb a) (pre ++ [k])); cbn [length]; lia.
  - exists y. split; [auto|]. split; [auto|]. intros f k m Hf.
    assert (Hk : In k (sorted_keys leb eqb (map fst kf))). { apply (SI k). apply in_map_iff. exists (k, m). split; auto. eapply nth_error_In; eauto. }
    apply in_split in Hk as (pre & post & E). rewrite (Y3 pre k post f m E Hf). f_equal.
    rewrite NFL, (sorted_before leb eqb eqbP leb_total leb_trans leb_anti _ _ _ _ E). unfold place. rewrite nth_error_map, Hf. reflexivity.
Qed.
End GroupedSorted.

(** * Places *)
Section Place.
Context {K : Type} (ltb eqb : K -> K -> bool).
Hypothesis eqbP : forall a b, reflect (a = b) (eqb a b).
Hypothesis lt_irr : forall a, ltb a a = false.
Lemma filter_excl (P Q : K -> bool) l : (forall a, P a = true -> Q a = true -> False) -> length (filter P l) + length (filter Q l) <= length l.
Proof.
  intros H. induction l as [|a l IH]; [cbn; lia|]. cbn [filter]. specialize (H a). destruct (P a), (Q a); cbn [length]; [elim H; auto| | |]; lia.
Qed.
Lemma rank_lt l f f' k : nth_error l f = Some k -> f < f' -> length (filter (eqb k) (firstn f l)) < length (filter (eqb k) (firstn f' l)).
Proof.
  revert f f'. induction l as [|a l IH]; intros f f' H L; [destruct f; discriminate|]. destruct f' as [|f']; [lia|]. destruct f.
  - cbn in H. injection H as ->. cbn. destruct (eqbP k k); [cbn; lia|congruence].
  - cbn [nth_error] in H. cbn [firstn filter]. specialize (IH f f' H ltac:(lia)). destruct (eqb k a); cbn [length]; lia.
Qed.
Lemma rank_lt_all l f k : nth_error l f = Some k -> length (filter (eqb k) (firstn f l)) < length (filter (eqb k) l).
Proof.
  intros H. rewrite <- (firstn_all l) at 2. apply (rank_lt l f (length l) k H). apply nth_error_Some. congruence.
Qed.
Lemma place_lt keys f : f < length keys -> place ltb eqb keys f < length keys.
Proof.
  intros H. unfold place. destruct (nth_error keys f) as [k|] eqn:E; [|lia].
  pose proof (rank_lt_all _ _ _ E) as R. pose proof (filter_excl (fun k' => ltb k' k) (eqb k) keys) as X.
  assert (forall a, ltb a k = true -> eqb k a = true -> False) as D. { intros a H1 H2. destruct (eqbP k a); [subst; rewrite lt_irr in H1|]; discriminate. }
  specialize (X D). lia.
Qed.
Hypothesis lt_trans : forall a b c, ltb a b = true -> ltb b c = true -> ltb a c = true.
Hypothesis lt_total : forall a b, a = b \/ ltb a b = true \/ ltb b a = true.
Lemma place_step keys f f' k k' : nth_error keys f = Some k -> nth_error keys f' = Some k' -> ltb k k' = true ->
  place ltb eqb keys f < place ltb eqb keys f'.
Proof.
  intros E E' L. unfold place. rewrite E, E'. pose proof (rank_lt_all _ _ _ E) as R.
  assert (length (filter (fun a => ltb a k) keys) + length (filter (eqb k) keys) <= length (filter (fun a => ltb a k') keys)); [|lia].
  clear -L lt_trans eqbP lt_irr. induction keys as [|a l IH]; [cbn; lia|]. cbn [filter]. destruct (ltb a k) eqn:E1.
  - rewrite (lt_trans _ _ _ E1 L). destruct (eqbP k a); [subst; rewrite lt_irr in E1; discriminate|]. cbn [length]; lia.
  - destruct (eqbP k a); [subst; rewrite L; cbn [length]; lia|]. destruct (ltb a k'); cbn [length]; lia.
Qed.
Lemma place_inj keys f f' : f < length keys -> f' < length keys -> place ltb eqb keys f = place ltb eqb keys f' -> f = f'.
Proof.
  intros H H' E. destruct (nth_error keys f) as [k|] eqn:Ek; [|apply nth_error_None in Ek; lia].
  destruct (nth_error keys f') as [k'|] eqn:Ek'; [|apply nth_error_None in Ek'; lia].
  destruct (lt_total k k') as [->|[L|L]].
  - unfold place in E. rewrite Ek, Ek' in E. destruct (lt_eq_lt_dec f f') as [[L|L]|L]; auto.
    + pose proof (rank_lt _ _ _ _ Ek L). lia. + pose proof (rank_lt _ _ _ _ Ek' L). lia.
  - pose proof (place_step _ _ _ _ _ Ek Ek' L). lia.
  - pose proof (place_step _ _ _ _ _ Ek' Ek L). lia.
Qed.
End Place.
