(** Lemmas on the expansion of the bases (C28): weights, filter, descriptions of the elements. *)
From Coq Require Import Reals ZArith String List Bool Lia Lra Sorting.Sorted Sorting.Permutation Arith.
From Verif Require Import Base Model_Groups Model_Rep Model_FieldType Model_Utils Model_Expansion
  Proofs_FieldType Proofs_FieldType2 Proofs_Utils Proofs_Kernels6 Proofs_Expansion.
Import ListNotations.
Open Scope nat_scope.

Lemma nodup_concat_map {A B} (f : A -> list B) l : NoDup l -> (forall x, In x l -> NoDup (f x)) ->
  (forall x y z, In x l -> In y l -> In z (f x) -> In z (f y) -> x = y) -> NoDup (concat (map f l)).
Proof.
  induction 1 as [|x l N H IH]; intros H1 H2; [constructor|]. cbn.
  assert (IH' : NoDup (concat (map f l))).
  { apply IH. - intros; apply H1; now right. - intros a b z Ha Hb. apply H2; now right. }
  assert (X := H1 x (or_introl eq_refl)). assert (D : forall z, In z (f x) -> ~ In z (concat (map f l))).
  { intros z Hz Hc. apply in_concat in Hc as [s [Hs Hz']]. apply in_map_iff in Hs as [y [<- Hy]].
    assert (x = y) by (apply (H2 x y z); auto; [now left|now right]). subst. auto. }
  clear -X IH' D. induction (f x) as [|z l1 IHl]; cbn; [exact IH'|]. inversion X; subst. constructor.
  - rewrite in_app_iff. intros [Q|Q]; [auto|]. apply (D z); auto. now left.
  - apply IHl; auto. intros y Hy. apply D. now right.
Qed.
Lemma nth_concat_split {A B} (f : A -> list B) l idx : idx < length (concat (map f l)) ->
  exists pre x post, l = pre ++ x :: post /\ length (concat (map f pre)) <= idx < length (concat (map f pre)) + length (f x).
Proof.
  revert idx. induction l as [|a l IH]; intros idx H; [cbn in H; lia|]. cbn in H. rewrite app_length in H.
  destruct (Nat.lt_ge_cases idx (length (f a))) as [L|G].
  - exists [], a, l. split; [reflexivity|]. cbn. lia.
  - destruct (IH (idx - length (f a))) as [pre [x [post [E B']]]]; [lia|]. exists (a :: pre), x, post. split; [now rewrite E|].
    cbn. rewrite app_length. lia.
Qed.
Lemma nth_concat_at {A B} (f : A -> list B) pre x post t : t < length (f x) ->
  nth_error (concat (map f (pre ++ x :: post))) (length (concat (map f pre)) + t) = nth_error (f x) t.
Proof.
  intros H. rewrite map_app, concat_app, nth_error_app2 by lia. cbn. replace (_ + t - _) with t by lia. now rewrite nth_error_app1.
Qed.
Lemma fold_min_seq n : forall a m, m <= a -> fold_left Nat.min (seq a n) m = m.
Proof. induction n; intros a m H; [reflexivity|]. cbn. rewrite Nat.min_l by lia. apply IHn. lia. Qed.
Lemma fold_max_seq n : forall a m, m <= a -> fold_left Nat.max (seq (S a) n) a = a + n.
Proof. induction n; intros a m H; cbn; [lia|]. rewrite Nat.max_r by lia. rewrite (IHn (S a) 0); lia. Qed.
Lemma span_seq a n : 0 < n -> span (seq a n) = (a, a + n, n).
Proof. destruct n; [lia|]. intros _. unfold span. cbn [seq]. rewrite fold_min_seq by lia. rewrite (fold_max_seq n a 0) by lia. f_equal; [f_equal; lia|lia]. Qed.

Lemma ranges_get {Id} (ids : key -> list (@fullid Id)) K post : forall pre last, ~ In K pre ->
  kget key_eqb (ranges_from ids last (pre ++ K :: post)) K =
  Some (last + length (concat (map ids pre)), last + length (concat (map ids pre)) + length (ids K)).
Proof.
  induction pre as [|k pre IH]; intros last N; cbn.
  - destruct (key_eqb_spec K K); [|congruence]. now rewrite Nat.add_0_r.
  - destruct (key_eqb_spec k K) as [->|_]; [destruct N; now left|]. rewrite IH by (intros Q; apply N; now right). rewrite app_length. f_equal. f_equal; lia.
Qed.
Lemma ranges_find {Id} (ids : key -> list (@fullid Id)) K post idx : forall pre last,
  last + length (concat (map ids pre)) <= idx < last + length (concat (map ids pre)) + length (ids K) ->
  find (fun kr => ((fst (snd kr) <=? idx) && (idx <? snd (snd kr)))%bool) (ranges_from ids last (pre ++ K :: post)) =
  Some (K, (last + length (concat (map ids pre)), last + length (concat (map ids pre)) + length (ids K))).
Proof.
  induction pre as [|k pre IH]; intros last H; cbn [app ranges_from find fst snd map concat length] in *.
  - destruct (Nat.leb_spec last idx); [|lia]. destruct (Nat.ltb_spec idx (last + length (ids K))); [|lia]. cbn. now rewrite Nat.add_0_r.
  - rewrite app_length in H. destruct (Nat.ltb_spec idx (last + length (ids k))); [lia|]. rewrite andb_false_r. rewrite IH by lia.
    rewrite app_length. f_equal. f_equal. f_equal; lia.
Qed.
Lemma last_index_none {Id} (e : Id -> Id -> bool) (He : forall a b, reflect (a = b) (e a b)) x : forall l p r, ~ In x l -> last_index e x l p r = r.
Proof.
  induction l as [|y l IH]; intros p r N; [reflexivity|]. cbn [last_index]. rewrite IH by (intros Q; apply N; now right).
  destruct (fullid_eqb_spec e He y x) as [->|_]; [destruct N; now left|reflexivity].
Qed.
Lemma last_index_nth {Id} (e : Id -> Id -> bool) (He : forall a b, reflect (a = b) (e a b)) x : forall l p r k, NoDup l -> nth_error l k = Some x ->
  last_index e x l p r = Some (p + k).
Proof.
  induction l as [|y l IH]; intros p r k N H; [destruct k; discriminate|]. inversion N; subst. destruct k as [|k]; cbn [nth_error last_index] in *.
  - injection H as ->. rewrite (last_index_none e He) by assumption. destruct (fullid_eqb_spec e He x x); [f_equal; lia|congruence].
  - rewrite (IH (S p) _ k); auto. f_equal. lia.
Qed.

Lemma scatter (r c : nat -> nat) (v : nat -> nat -> R) : forall n, (forall m m', m < n -> m' < n -> r m = r m' -> c m = c m' -> m = m') -> forall f,
  let f' := fold_left (fun f m => upd3 f (r m) (c m) (v m)) (seq 0 n) f in
  (forall m s, m < n -> f' (r m) (c m) s = v m s) /\ (forall R' C s, (forall m, m < n -> ~ (r m = R' /\ c m = C)) -> f' R' C s = f R' C s).
Proof.
  induction n as [|n IH]; intros H f; cbv zeta; [split; [intros; lia|reflexivity]|].
  rewrite seq_S, fold_left_app. cbn [fold_left Nat.add].
  destruct (IH (fun m m' a b' => H m m' (Nat.lt_lt_succ_r _ _ a) (Nat.lt_lt_succ_r _ _ b')) f) as [A B]. cbv zeta in A, B.
  split.
  - intros m s Hm. unfold upd3 at 1. destruct (Nat.eq_dec m n) as [->|Ne]; [now rewrite !Nat.eqb_refl|].
    destruct (Nat.eqb_spec (r m) (r n)) as [E1|]; cbn [andb]; [destruct (Nat.eqb_spec (c m) (c n)) as [E2|]|].
    + exfalso. apply Ne. apply H; auto.
    + apply A; lia.
    + apply A; lia.
  - intros R' C s Hn. unfold upd3 at 1. destruct (Nat.eqb_spec R' (r n)) as [E1|]; cbn [andb]; [destruct (Nat.eqb_spec C (c n)) as [E2|]|].
    + exfalso. apply (Hn n); auto.
    + apply B. intros m Hm. apply Hn. lia.
    + apply B. intros m Hm. apply Hn. lia.
Qed.
Lemma rmap_kget {A V} (e : A -> A -> bool) (He : forall a b, reflect (a = b) (e a b)) (f : A -> result (A * V)) (Hf : forall K y, f K = Ok y -> fst y = K) K :
  forall l d, rmap f l = Ok d -> In K l -> exists v, f K = Ok (K, v) /\ kget e d K = Some v.
Proof.
  induction l as [|a l IH]; intros d H I; [destruct I|]. cbn in H. destruct (rbind_ok _ _ _ H) as [[a' v] [Ha H1]]. destruct (rbind_ok _ _ _ H1) as [d' [Hd H2]].
  injection H2 as <-. assert (a' = a) by (apply (Hf a _ Ha)). subst a'. cbn. destruct (He a K) as [->|Ne]; [eauto|]. destruct I as [->|I]; [congruence|]. now apply IH.
Qed.
Lemma nth_sub_list (w : list R) a n x : x < n -> nth x (sub_list w a (a + n)) 0%R = nth (a + x) w 0%R.
Proof.
  intros H. unfold sub_list. replace (a + n - a) with n by lia.
  rewrite <- (firstn_skipn n (skipn a w)) at 1. assert (nth x (skipn a w) 0%R = nth (a + x) w 0%R) as <-.
  { clear. revert w x. induction a as [|a IH]; intros [|y w] x; cbn; auto. now destruct x. }
  destruct (Nat.lt_ge_cases x (length (firstn n (skipn a w)))) as [L|G].
  - rewrite firstn_skipn. rewrite <- (firstn_skipn n (skipn a w)) at 2. now rewrite app_nth1.
  - rewrite firstn_skipn. rewrite nth_overflow by exact G. rewrite firstn_length in G. rewrite nth_overflow; [reflexivity|lia].
Qed.
Lemma indices_uniform {Rp} (rname : Rp -> string) (rsize : Rp -> nat) n l : (forall r, In r l -> rname r = n) ->
  forall p, label_indices n p (fields rname rsize l) = seq p (nsum (map rsize l)).
Proof.
  induction l as [|r l IH]; intros H p; [reflexivity|]. cbn. rewrite (H r) by (now left). rewrite String.eqb_refl. rewrite IH by (intros; apply H; now right).
  symmetry. apply seq_app.
Qed.

Section Main.
Context {Rp At Id : Type} (rname : Rp -> string) (rsize rirr : Rp -> nat) (rp_eqb : Rp -> Rp -> bool)
        (at_id : At -> Id) (at_in at_out : At -> nat) (id_eqb : Id -> Id -> bool).
Hypothesis Hid : forall a b, reflect (a = b) (id_eqb a b).
Hypothesis Hrefl : forall r, rp_eqb r r = true.
Hypothesis Hname : forall a b, rp_eqb a b = true -> rname a = rname b.
Variables (ins outs : list Rp) (S : nat) (gen : Rp -> Rp -> result (sblock At)) (b : @bexp Rp At Id).
Hypothesis Hmake : be_make rname rsize rp_eqb at_id ins outs S gen = Ok b.
Hypothesis Hins : named rname ins.
Hypothesis Houts : named rname outs.
Hypothesis Hposi : forall r, In r ins -> 0 < rsize r.
Hypothesis Hposo : forall r, In r outs -> 0 < rsize r.
Hypothesis Hgen : forall i o sb, In i ins -> In o outs -> gen i o = Ok sb ->
  sb_rows sb = rsize o /\ sb_cols sb = rsize i /\ 0 < length (sb_els sb) /\ NoDup (map (fun e => at_id (fst e)) (sb_els sb)).

Notation pos := (pos rname rsize).
Notation idx := (indices rname rsize).
Notation roff := (roff rsize).
Notation ids := (basis_ids rname at_id (be_blocks b) ins outs).

Lemma make_inv : be_in b = ins /\ be_out b = outs /\ be_S b = S /\ be_npairs b = length (set_of rp_eqb ins) * length (set_of rp_eqb outs) /\
  build_blocks rname rp_eqb gen ins outs = Ok (be_blocks b) /\ be_pairs b = sort_pairs (map fst (be_blocks b)) /\
  be_ranges b = ranges_from ids 0 (be_pairs b) /\ be_ids b = concat (map ids (be_pairs b)) /\
  rmap (fun K => rbind (contiguous rname rsize ins (fst K)) (fun ci => rbind (contiguous rname rsize outs (snd K)) (fun co => Ok (K, (ci && co)%bool)))) (be_pairs b) = Ok (be_contig b).
Proof.
  unfold be_make in Hmake. destruct (rbind_ok _ _ _ Hmake) as [blocks [E1 H1]]. cbn zeta in H1.
  destruct (rbind_ok _ _ _ H1) as [contig [E2 H2]]. injection H2 as <-. cbn. rewrite E1, E2. auto 12.
Qed.
Lemma list_prod_sets p : In p (list_prod (set_of rp_eqb ins) (set_of rp_eqb outs)) <-> In (fst p) ins /\ In (snd p) outs.
Proof.
  destruct p as [i o]. rewrite in_prod_iff. cbn. split; intros [A B]; split; try (eapply set_of_in; eassumption); (apply (set_of_same rname rp_eqb); auto).
Qed.
Lemma blocks_facts :
  (forall ri ro, In ri ins -> In ro outs -> kget key_eqb (be_blocks b) (rname ri, rname ro) = match gen ri ro with Ok sb => Some sb | Err _ => None end) /\
  (forall K sb, kget key_eqb (be_blocks b) K = Some sb -> exists ri ro, In ri ins /\ In ro outs /\ K = (rname ri, rname ro) /\ gen ri ro = Ok sb) /\
  NoDup (map fst (be_blocks b)) /\
  (forall ri ro x, In ri ins -> In ro outs -> gen ri ro = Err x -> x = "EmptyBasisException"%string).
Proof.
  destruct make_inv as [_ [_ [_ [_ [E _]]]]]. unfold build_blocks in E.
  destruct (build_spec rname gen (list_prod (set_of rp_eqb ins) (set_of rp_eqb outs))) with (d := be_blocks b) as [A [B [C D]]].
  - intros p q Hp Hq Hk. apply list_prod_sets in Hp, Hq. unfold pkey in Hk. injection Hk as K1 K2. destruct p, q. cbn in *. f_equal; [apply Hins|apply Houts]; tauto.
  - exact E.
  - split; [|split; [|split]].
    + intros ri ro Hi Ho. apply (A (ri, ro)). apply list_prod_sets. auto.
    + intros K sb HK. destruct (B K sb HK) as [[ri ro] [P1 [P2 P3]]]. apply list_prod_sets in P1. exists ri, ro. cbn in *. intuition auto.
    + exact C.
    + intros ri ro x Hi Ho. apply (D (ri, ro)). apply list_prod_sets. auto.
Qed.
Lemma pairs_perm : Permutation (map fst (be_blocks b)) (be_pairs b).
Proof. destruct make_inv as [_ [_ [_ [_ [_ [E _]]]]]]. rewrite E. apply sort_pairs_perm. Qed.
Lemma pairs_in K : In K (be_pairs b) <-> exists sb, kget key_eqb (be_blocks b) K = Some sb.
Proof. rewrite <- (kget_keys _ key_eqb_spec). split; apply Permutation_in; [symmetry|]; apply pairs_perm. Qed.
Lemma pairs_nodup : NoDup (be_pairs b).
Proof. eapply Permutation_NoDup; [apply pairs_perm|]. apply blocks_facts. Qed.

Lemma pos_nodup l n : NoDup (pos l n).
Proof. apply sorted_nodup, label_fields_sorted. Qed.
Lemma ids_eq K sb : kget key_eqb (be_blocks b) K = Some sb ->
  ids K = concat (map (fun oi => map (fun e => idof at_id K oi (fst e)) (sb_els sb)) (list_prod (pos outs (snd K)) (pos ins (fst K)))).
Proof. intros E. rewrite (basis_ids_eq rname rsize at_id). now rewrite E. Qed.
Lemma ids_length K sb : kget key_eqb (be_blocks b) K = Some sb -> length (ids K) = length (pos outs (snd K)) * length (pos ins (fst K)) * length (sb_els sb).
Proof. intros E. rewrite (ids_eq K sb E). rewrite (length_concat_map _ (length (sb_els sb))) by (intros; apply map_length). now rewrite prod_length. Qed.
Lemma ids_nth K sb q p t o i e : kget key_eqb (be_blocks b) K = Some sb -> nth_error (pos outs (snd K)) q = Some o -> nth_error (pos ins (fst K)) p = Some i ->
  nth_error (sb_els sb) t = Some e -> nth_error (ids K) ((q * length (pos ins (fst K)) + p) * length (sb_els sb) + t) = Some (idof at_id K (o, i) (fst e)).
Proof.
  intros E Hq Hp Ht. rewrite (ids_eq K sb E). rewrite (nth_error_concat_map _ (length (sb_els sb)) _ _ t (o, i)).
  - now rewrite nth_error_map, Ht.
  - intros; apply map_length.
  - apply nth_error_list_prod; auto.
  - apply nth_error_Some. congruence.
Qed.
Lemma ids_nodup : NoDup (be_ids b).
Proof.
  destruct make_inv as [_ [_ [_ [_ [_ [_ [_ [E _]]]]]]]]. rewrite E. destruct blocks_facts as [_ [B _]].
  assert (X : forall K z, In z (ids K) -> fst (fst (fst (fst z))) = fst K /\ snd (fst (fst z)) = snd K).
  { intros K z Hz. rewrite (basis_ids_eq rname rsize at_id) in Hz. destruct (kget key_eqb (be_blocks b) K) as [sb|] eqn:Q; [|destruct Hz].
    apply in_concat in Hz as [s [Hs Hz]]. apply in_map_iff in Hs as [oi [<- _]]. apply in_map_iff in Hz as [e [<- _]]. split; reflexivity. }
  apply nodup_concat_map; [apply pairs_nodup| |].
  - intros K HK. apply pairs_in in HK as [sb Hsb]. rewrite (ids_eq K sb Hsb). destruct (B K sb Hsb) as [ri [ro [Hi [Ho [-> G]]]]].
    destruct (Hgen _ _ _ Hi Ho G) as [_ [_ [_ ND]]]. apply nodup_concat_map.
    + apply nodup_list_prod; apply pos_nodup.
    + intros oi _. clear -ND. set (f := fun e : At * (nat -> mat) => at_id (fst e)) in ND.
      assert (forall l, NoDup (map f l) -> NoDup (map (fun e => idof at_id (rname ri, rname ro) oi (fst e)) l)).
      { induction l as [|e l IH]; cbn; intros H; [constructor|]. inversion H; subst. constructor; auto.
        intros Q. apply in_map_iff in Q as [e' [Q1 Q2]]. unfold idof in Q1. injection Q1 as Q1. apply H2. apply in_map_iff. exists e'. auto. }
      auto.
    + intros x y z _ _ Hx Hy. apply in_map_iff in Hx as [e [<- _]]. apply in_map_iff in Hy as [e' [Q _]]. unfold idof in Q. injection Q as Q1 Q2. destruct x, y. cbn in *. congruence.
  - intros K K' z _ _ H1 H2. apply X in H1 as [A1 A2]. apply X in H2 as [B1 B2]. destruct K, K'. cbn in *. congruence.
Qed.
Lemma dim_eq : be_dimension id_eqb b = length (be_ids b).
Proof. unfold be_dimension. rewrite (distinct_nodup id_eqb Hid); [reflexivity|apply ids_nodup]. Qed.

(** where the weights of a pair start *)
Lemma start_of K sb : kget key_eqb (be_blocks b) K = Some sb -> exists pre post a, be_pairs b = pre ++ K :: post /\ ~ In K pre /\ a = length (concat (map ids pre)) /\
  kget key_eqb (be_ranges b) K = Some (a, a + length (ids K)) /\ a + length (ids K) <= length (be_ids b).
Proof.
  intros E. destruct make_inv as [_ [_ [_ [_ [_ [_ [E2 [E3 _]]]]]]]]. assert (In K (be_pairs b)) as HK by (apply pairs_in; eauto).
  apply in_split in HK as [pre [post HP]]. assert (N := pairs_nodup). rewrite HP in N. apply NoDup_remove_2 in N.
  assert (~ In K pre) as Npre by (intros Q; apply N, in_or_app; auto).
  exists pre, post, (length (concat (map ids pre))). split; [exact HP|]. split; [exact Npre|]. split; [reflexivity|]. split.
  - rewrite E2, HP. apply (ranges_get ids K post pre 0 Npre).
  - rewrite E3, HP, map_app, concat_app, app_length. cbn. rewrite app_length. lia.
Qed.

(** the block with indices q, p of a pair, and element t of it *)
Definition widx (a ic d q p t : nat) : nat := a + ((q * ic + p) * d + t).

Lemma found_eq K : concat (map (fun po => map (fun pi => (fst po, fst pi))
      (filter (fun pi => key_eqb K (rname (snd pi), rname (snd po))) (enumerate ins))) (enumerate outs)) = list_prod (pos outs (snd K)) (pos ins (fst K)).
Proof.
  rewrite list_prod_concat. rewrite <- (enum_filter_pos rname rsize (fun r => String.eqb (rname r) (snd K)) (snd K) outs) by reflexivity.
  rewrite concat_map_map, <- concat_map_if. f_equal. apply map_ext. intros [o ro]. cbn [fst snd].
  destruct (String.eqb_spec (rname ro) (snd K)) as [Eo|No].
  - rewrite <- (enum_filter_pos rname rsize (fun r => String.eqb (rname r) (fst K)) (fst K) ins) by reflexivity. rewrite map_map.
    f_equal. apply filter_ext. intros [i ri]. unfold key_eqb. cbn [fst snd]. rewrite Eo, String.eqb_refl, andb_true_r. apply String.eqb_sym.
  - replace (filter _ (enumerate ins)) with (@nil (nat * Rp)); [reflexivity|]. symmetry.
    assert (X : forall l, filter (fun pi : nat * Rp => key_eqb K (rname (snd pi), rname ro)) l = []).
    { induction l as [|[i ri] l IH]; [reflexivity|]. cbn [filter]. rewrite IH. unfold key_eqb. cbn [fst snd]. destruct (String.eqb_spec (snd K) (rname ro)); [congruence|]. now rewrite andb_false_r. }
    apply X.
Qed.

Notation info := (info rirr at_id at_in at_out b).
Notation einf := (be_element_info rname rirr at_id at_in at_out b).
Notation binfo := (be_basis_info rname rsize rirr at_id at_in at_out b).

Lemma div_lin q d t : t < d -> (q * d + t) / d = q /\ (q * d + t) mod d = t.
Proof. intros H. split; [rewrite Nat.div_add_l by lia; rewrite Nat.div_small by lia; lia|]. rewrite Nat.add_comm, Nat.mod_add by lia. apply Nat.mod_small; lia. Qed.
Lemma lin_lt q p m n : q < m -> p < n -> q * n + p < m * n.
Proof. intros. nia. Qed.

Lemma element_at K sb pre post q p t o i e : kget key_eqb (be_blocks b) K = Some sb -> be_pairs b = pre ++ K :: post ->
  nth_error (pos outs (snd K)) q = Some o -> nth_error (pos ins (fst K)) p = Some i -> nth_error (sb_els sb) t = Some e ->
  let x := widx (length (concat (map ids pre))) (length (pos ins (fst K))) (length (sb_els sb)) q p t in
  x < length (be_ids b) /\ nth_error (be_ids b) x = Some (idof at_id K (o, i) (fst e)) /\
  einf x = Ok (info K (fst e) o i x) /\ nth_error binfo x = Some (info K (fst e) o i x).
Proof.
  intros E HP Hq Hp Ht x. assert (MI := make_inv). destruct MI as [I1 [I2 [_ [_ [_ [_ [E2 [E3 _]]]]]]]].
  assert (q < length (pos outs (snd K))) as Lq by (apply nth_error_Some; congruence).
  assert (p < length (pos ins (fst K))) as Lp by (apply nth_error_Some; congruence).
  assert (t < length (sb_els sb)) as Lt by (apply nth_error_Some; congruence).
  assert (LI := ids_length K sb E).
  set (ic := length (pos ins (fst K))) in *. set (d := length (sb_els sb)) in *.
  assert (Lr : (q * ic + p) * d + t < length (ids K)) by (rewrite LI; apply lin_lt; auto; apply lin_lt; auto).
  assert (nth_error (be_ids b) x = Some (idof at_id K (o, i) (fst e))) as Nx.
  { rewrite E3, HP. unfold x, widx. rewrite nth_concat_at by exact Lr. apply ids_nth; auto. }
  split; [apply nth_error_Some; congruence|]. split; [exact Nx|]. split.
  - unfold be_element_info. rewrite E2, HP.
    rewrite (ranges_find ids K post x pre 0) by (unfold x, widx; lia). rewrite E. cbn [fst snd]. rewrite Nat.add_0_l.
    replace (x - length (concat (map ids pre))) with ((q * ic + p) * d + t) by (unfold x, widx; lia).
    fold d. destruct (div_lin (q * ic + p) d t Lt) as [-> ->]. rewrite Ht. rewrite I1, I2, found_eq.
    change ic with (length (pos ins (fst K))). rewrite (nth_error_list_prod _ _ q p o i) by auto. reflexivity.
  - unfold be_basis_info. rewrite I1, I2. cbv zeta. match goal with |- nth_error (map _ (enumerate ?L)) _ = _ => set (l := L) end.
    assert (nth_error l x = Some (K, fst e, o, i)) as Nl.
    { unfold l. rewrite HP. match goal with |- nth_error (concat (map ?f _)) _ = _ => set (F := f) end.
      assert (FL : forall K', length (F K') = length (ids K')).
      { intros K'. unfold F. destruct (kget key_eqb (be_blocks b) K') as [sb'|] eqn:Q.
        - rewrite (ids_length K' sb' Q). rewrite (length_concat_map _ (length (pos ins (fst K')) * length (sb_els sb'))); [unfold Proofs_Expansion.pos; lia|].
          intros o' _. rewrite (length_concat_map _ (length (sb_els sb'))) by (intros; apply map_length). reflexivity.
        - rewrite (basis_ids_eq rname rsize at_id). now rewrite Q. }
      assert (FC : length (concat (map F pre)) = length (concat (map ids pre))).
      { clear -FL. induction pre as [|k pre IH]; [reflexivity|]. cbn. rewrite !app_length, FL, IH. reflexivity. }
      unfold x, widx. rewrite <- FC. rewrite nth_concat_at by (rewrite FL; exact Lr). unfold F. rewrite E.
      replace ((q * ic + p) * d + t) with (q * (ic * d) + (p * d + t)) by ring.
      rewrite (nth_error_concat_map _ (ic * d) _ q (p * d + t) o); [|intros; rewrite (length_concat_map _ d) by (intros; apply map_length); reflexivity|exact Hq|apply lin_lt; auto].
      rewrite (nth_error_concat_map _ d _ p t i); [|intros; apply map_length|exact Hp|exact Lt]. now rewrite nth_error_map, Ht. }
    rewrite nth_error_map. assert (nth_error (enumerate l) x = Some (x, (K, fst e, o, i))) as ->; [|reflexivity].
    clearbody x. clearbody l. clear -Nl. unfold enumerate. rewrite <- (Nat.add_0_l x) at 2. generalize 0 as a. revert x Nl.
    induction l as [|y l IH]; intros x Nl a; [destruct x; discriminate|]. destruct x; cbn in *; [injection Nl as ->; now rewrite Nat.add_0_r|].
    rewrite (IH x Nl (Datatypes.S a)). f_equal. f_equal. lia.
Qed.

(** every weight belongs to exactly one block *)
Lemma weight_of x : x < length (be_ids b) -> exists K sb pre post q p t o i e,
  kget key_eqb (be_blocks b) K = Some sb /\ be_pairs b = pre ++ K :: post /\ nth_error (pos outs (snd K)) q = Some o /\
  nth_error (pos ins (fst K)) p = Some i /\ nth_error (sb_els sb) t = Some e /\
  x = widx (length (concat (map ids pre))) (length (pos ins (fst K))) (length (sb_els sb)) q p t.
Proof.
  intros H. destruct make_inv as [_ [_ [_ [_ [_ [_ [_ [E3 _]]]]]]]]. rewrite E3 in H.
  destruct (nth_concat_split _ _ _ H) as [pre [K [post [HP B]]]]. assert (In K (be_pairs b)) as HK by (rewrite HP; apply in_or_app; right; now left).
  apply pairs_in in HK as [sb E]. assert (LI := ids_length K sb E).
  set (ic := length (pos ins (fst K))) in *. set (d := length (sb_els sb)) in *. set (oc := length (pos outs (snd K))) in *.
  set (y := x - length (concat (map ids pre))). assert (y < oc * ic * d) as Ly by (unfold y; lia).
  assert (0 < d) by nia. assert (0 < ic) by nia.
  assert (y / d < oc * ic) by (apply Nat.div_lt_upper_bound; lia). assert (y / d / ic < oc) as Lq by (apply Nat.div_lt_upper_bound; lia).
  assert ((y / d) mod ic < ic) as Lp by (apply Nat.mod_upper_bound; lia). assert (y mod d < d) as Lt by (apply Nat.mod_upper_bound; lia).
  destruct (nth_error (pos outs (snd K)) (y / d / ic)) as [o|] eqn:Qo; [|apply nth_error_None in Qo; fold oc in Qo; lia].
  destruct (nth_error (pos ins (fst K)) ((y / d) mod ic)) as [i|] eqn:Qi; [|apply nth_error_None in Qi; fold ic in Qi; lia].
  destruct (nth_error (sb_els sb) (y mod d)) as [e|] eqn:Qe; [|apply nth_error_None in Qe; fold d in Qe; lia].
  exists K, sb, pre, post, (y / d / ic), ((y / d) mod ic), (y mod d), o, i, e.
  split; auto. split; auto. split; auto. split; auto. split; auto. unfold widx. fold ic d.
  rewrite (Nat.mul_comm (y / d / ic) ic), <- Nat.div_mod by lia. rewrite (Nat.mul_comm (y / d) d), <- Nat.div_mod by lia. unfold y. lia.
Qed.
(** ** the filter *)
Lemma merged_val K sb ri ro g q p r c s : K = (rname ri, rname ro) -> sb_rows sb = rsize ro -> sb_cols sb = rsize ri ->
  p < length (pos ins (fst K)) -> r < rsize ro -> c < rsize ri ->
  merged rname rsize b K (sb, g) ((q * rsize ro + r) * (length (pos ins (fst K)) * rsize ri) + (p * rsize ri + c)) s = g q r p c s.
Proof.
  intros -> HR HC Hp Hr Hc. unfold merged. cbn [fst snd]. destruct make_inv as [I1 [I2 _]]. rewrite I1, HR, HC.
  change (count rname rsize ins (rname ri)) with (length (pos ins (rname ri))).
  assert (p * rsize ri + c < length (pos ins (rname ri)) * rsize ri) as L by (apply lin_lt; auto).
  destruct (div_lin (q * rsize ro + r) _ _ L) as [-> ->]. destruct (div_lin q (rsize ro) r Hr) as [-> ->]. now destruct (div_lin p (rsize ri) c Hc) as [-> ->].
Qed.
(** value of the block number (q, p) of a pair whose weights start at a *)
Definition bval (w : list R) (sb : sblock At) (a ic q p r c s : nat) : R :=
  rsum (length (sb_els sb)) (fun t => (sb_el sb t s r c * nth (widx a ic (length (sb_els sb)) q p t) w 0)%R).
Lemma expand_spec w K sb a : length w = length (be_ids b) -> kget key_eqb (be_blocks b) K = Some sb ->
  kget key_eqb (be_ranges b) K = Some (a, a + length (ids K)) -> a + length (ids K) <= length (be_ids b) ->
  exists g, expand_block rname rsize b w K = Ok (sb, g) /\ forall q r p c s, q < length (pos outs (snd K)) -> p < length (pos ins (fst K)) ->
    g q r p c s = bval w sb a (length (pos ins (fst K))) q p r c s.
Proof.
  intros Hw E ER LE. unfold expand_block. rewrite E, ER. cbn [fst snd]. destruct make_inv as [I1 [I2 _]]. rewrite I1, I2.
  change (count rname rsize outs (snd K)) with (length (pos outs (snd K))). change (count rname rsize ins (fst K)) with (length (pos ins (fst K))).
  assert (LI := ids_length K sb E).
  assert (length (sub_list w a (a + length (ids K))) = length (ids K)) as LS by (unfold sub_list; rewrite firstn_length, skipn_length; lia).
  rewrite LS, LI, Nat.eqb_refl. eexists. split; [reflexivity|]. intros q r p c s Hq Hp. apply rsum_ext. intros t Ht. f_equal.
  rewrite <- LI. apply nth_sub_list. rewrite LI. apply lin_lt; auto. apply lin_lt; auto.
Qed.
Lemma write_pair_spec w f ri ro sb : In ri ins -> In ro outs -> gen ri ro = Ok sb -> length w = length (be_ids b) ->
  let K := (rname ri, rname ro) in
  exists a f', kget key_eqb (be_ranges b) K = Some (a, a + length (ids K)) /\ write_pair rname rsize b w f K = Ok f' /\
    (forall q p o i r c s, nth_error (pos outs (rname ro)) q = Some o -> nth_error (pos ins (rname ri)) p = Some i -> r < rsize ro -> c < rsize ri ->
       f' (roff outs o + r) (roff ins i + c) s = bval w sb a (length (pos ins (rname ri))) q p r c s) /\
    (forall R' C s, ~ (In R' (idx outs (rname ro)) /\ In C (idx ins (rname ri))) -> f' R' C s = f R' C s).
Proof.
  intros Hi Ho G Hw K. destruct blocks_facts as [B1 _]. assert (E : kget key_eqb (be_blocks b) K = Some sb) by (unfold K; rewrite B1, G; auto).
  destruct (start_of K sb E) as [pre [post [a [_ [_ [_ [ER LE]]]]]]]. destruct (expand_spec w K sb a Hw E ER LE) as [g [EX Hg]].
  destruct (Hgen _ _ _ Hi Ho G) as [HR [HC [_ _]]]. assert (MI := make_inv). destruct MI as [I1 [I2 [_ [_ [_ [_ [_ [_ EC]]]]]]]].
  assert (HK : In K (be_pairs b)) by (apply pairs_in; eauto).
  assert (exists ct, rbind (contiguous rname rsize ins (fst K)) (fun ci => rbind (contiguous rname rsize outs (snd K)) (fun co => Ok (K, (ci && co)%bool))) = Ok (K, ct) /\ kget key_eqb (be_contig b) K = Some ct) as [ct [HC1 HC2]].
  { refine (rmap_kget key_eqb key_eqb_spec _ _ K _ _ EC HK). intros K0 y Hy. destruct (rbind_ok _ _ _ Hy) as [c1 [_ Hy1]]; destruct (rbind_ok _ _ _ Hy1) as [c2 [_ Hy2]]; injection Hy2 as <-; reflexivity. }
  destruct (rbind_ok _ _ _ HC1) as [ci [Eci HC3]]. destruct (rbind_ok _ _ _ HC3) as [co [Eco HC4]]. injection HC4 as HC4.
  assert (Li := idx_length rname rsize ins (rname ri) ri Hins Hi eq_refl). assert (Lo := idx_length rname rsize outs (rname ro) ro Houts Ho eq_refl).
  assert (Hmg : merged_size rname rsize b K sb = length (idx outs (rname ro)) * length (idx ins (rname ri))).
  { unfold merged_size. rewrite I1, I2, HR, HC, Li, Lo. reflexivity. }
  assert (NO : length (pos outs (rname ro)) <> 0).
  { intros Q. apply length_zero_iff_nil in Q. apply In_nth_error in Ho as [o Ho]. assert (In o (pos outs (rname ro))) as X by (apply pos_in; eauto). rewrite Q in X. destruct X. }
  assert (NI : length (pos ins (rname ri)) <> 0).
  { intros Q. apply length_zero_iff_nil in Q. apply In_nth_error in Hi as [i Hi]. assert (In i (pos ins (rname ri))) as X by (apply pos_in; eauto). rewrite Q in X. destruct X. }
  assert (Pi := Hposi ri Hi). assert (Po := Hposo ro Ho).
  assert (PLi : 0 < length (idx ins (rname ri))) by (rewrite Li; nia). assert (PLo : 0 < length (idx outs (rname ro))) by (rewrite Lo; nia).
  exists a. unfold write_pair. rewrite EX. cbn [rbind]. rewrite HC2, I1, I2. change (fst K) with (rname ri); change (snd K) with (rname ro); cbn [fst].
  assert (VAL : forall q p o i r c s, nth_error (pos outs (rname ro)) q = Some o -> nth_error (pos ins (rname ri)) p = Some i -> r < rsize ro -> c < rsize ri ->
    q * rsize ro + r < length (idx outs (rname ro)) /\ p * rsize ri + c < length (idx ins (rname ri)) /\
    nth (q * rsize ro + r) (idx outs (rname ro)) 0 = roff outs o + r /\ nth (p * rsize ri + c) (idx ins (rname ri)) 0 = roff ins i + c /\
    merged rname rsize b K (sb, g) ((q * rsize ro + r) * length (idx ins (rname ri)) + (p * rsize ri + c)) s = bval w sb a (length (pos ins (rname ri))) q p r c s).
  { intros q p o i r c s Hq Hp Hr Hc.
    assert (q < length (pos outs (rname ro))) as Lq by (apply nth_error_Some; congruence).
    assert (p < length (pos ins (rname ri))) as Lp by (apply nth_error_Some; congruence).
    split; [rewrite Lo; apply lin_lt; auto|]. split; [rewrite Li; apply lin_lt; auto|].
    split; [apply nth_error_nth; apply idx_nth; auto|]. split; [apply nth_error_nth; apply idx_nth; auto|].
    rewrite Li. etransitivity; [exact (merged_val K sb ri ro g q p r c s eq_refl HR HC Lp Hr Hc)|]; apply Hg; auto. }
  destruct ct.
  - apply andb_true_iff in HC4 as [-> ->].
    assert (SI : exists i0, idx ins (rname ri) = seq i0 (length (idx ins (rname ri)))).
    { unfold contiguous in Eci. cbn [K fst] in Eci. assert (SS := idx_sorted rname rsize ins (rname ri)).
      destruct (idx ins (rname ri)) as [|x l]; [cbn in PLi; lia|]. exists x. now apply (check_sorted x l true SS Eci). }
    assert (SO : exists o0, idx outs (rname ro) = seq o0 (length (idx outs (rname ro)))).
    { unfold contiguous in Eco. cbn [K snd] in Eco. assert (SS := idx_sorted rname rsize outs (rname ro)).
      destruct (idx outs (rname ro)) as [|x l]; [cbn in PLo; lia|]. exists x. now apply (check_sorted x l true SS Eco). }
    destruct SI as [i0 SI]. destruct SO as [o0 SO]. set (ni := length (idx ins (rname ri))) in *. set (no := length (idx outs (rname ro))) in *.
    rewrite SI, SO. rewrite !span_seq by assumption. rewrite Hmg, Nat.eqb_refl. eexists. split; [exact ER|]. split; [reflexivity|]. split.
    + intros q p o i r c s Hq Hp Hr Hc. destruct (VAL q p o i r c s Hq Hp Hr Hc) as [Lx [Ly [Nx [Ny V]]]].
      rewrite SO, seq_nth in Nx by exact Lx. rewrite SI, seq_nth in Ny by exact Ly. rewrite <- Nx, <- Ny.
      destruct (Nat.leb_spec o0 (o0 + (q * rsize ro + r))); [|lia]. destruct (Nat.ltb_spec (o0 + (q * rsize ro + r)) (o0 + no)); [|lia].
      destruct (Nat.leb_spec i0 (i0 + (p * rsize ri + c))); [|lia]. destruct (Nat.ltb_spec (i0 + (p * rsize ri + c)) (i0 + ni)); [|lia].
      cbn [andb]. rewrite <- V. f_equal. f_equal; [f_equal|]; lia.
    + intros R' C s N. rewrite !in_seq in N.
      destruct (Nat.leb_spec o0 R'); destruct (Nat.ltb_spec R' (o0 + no)); destruct (Nat.leb_spec i0 C); destruct (Nat.ltb_spec C (i0 + ni)); cbn [andb]; try reflexivity.
      exfalso. apply N. lia.
  - rewrite Hmg, Nat.eqb_refl. eexists. split; [exact ER|]. split; [reflexivity|].
    set (ii := idx ins (rname ri)) in *. set (oi := idx outs (rname ro)) in *.
    destruct (scatter (fun m => nth (m / length ii) oi 0) (fun m => nth (m mod length ii) ii 0) (merged rname rsize b K (sb, g)) (length oi * length ii)) with (f := f) as [A B].
    { intros m m' Hm Hm' E1 E2. assert (NDo : NoDup oi) by apply sorted_nodup, idx_sorted. assert (NDi : NoDup ii) by apply sorted_nodup, idx_sorted.
      rewrite (NoDup_nth oi 0) in NDo. rewrite (NoDup_nth ii 0) in NDi.
      assert (m / length ii = m' / length ii) as X1 by (apply NDo; auto; apply Nat.div_lt_upper_bound; lia).
      assert (m mod length ii = m' mod length ii) as X2 by (apply NDi; auto; apply Nat.mod_upper_bound; lia).
      rewrite (Nat.div_mod m (length ii)), (Nat.div_mod m' (length ii)) by lia. congruence. }
    split.
    + intros q p o i r c s Hq Hp Hr Hc. destruct (VAL q p o i r c s Hq Hp Hr Hc) as [Lx [Ly [Nx [Ny V]]]].
      set (m := (q * rsize ro + r) * length ii + (p * rsize ri + c)) in *. destruct (div_lin (q * rsize ro + r) (length ii) (p * rsize ri + c) Ly) as [D1 D2]. fold m in D1, D2.
      specialize (A m s). cbv beta zeta in A. rewrite D1, D2, Nx, Ny in A. rewrite A; [exact V|]. unfold m. apply lin_lt; auto.
    + intros R' C s N. apply B. intros m Hm [E1 E2]. apply N. split; [rewrite <- E1|rewrite <- E2]; apply nth_In; [apply Nat.div_lt_upper_bound|apply Nat.mod_upper_bound]; lia.
Qed.
Lemma fold_pairs w : length w = length (be_ids b) -> forall L, (forall K, In K L -> In K (be_pairs b)) -> NoDup L ->
  exists f, fold_left (fun acc K => rbind acc (fun f => write_pair rname rsize b w f K)) L (Ok (fun _ _ _ => 0%R)) = Ok f /\
    forall ri ro q p o i r c s, nth_error outs o = Some ro -> nth_error ins i = Some ri ->
      nth_error (pos outs (rname ro)) q = Some o -> nth_error (pos ins (rname ri)) p = Some i -> r < rsize ro -> c < rsize ri ->
      (In (rname ri, rname ro) L -> exists sb a, gen ri ro = Ok sb /\ kget key_eqb (be_ranges b) (rname ri, rname ro) = Some (a, a + length (ids (rname ri, rname ro))) /\
          f (roff outs o + r) (roff ins i + c) s = bval w sb a (length (pos ins (rname ri))) q p r c s) /\
      (~ In (rname ri, rname ro) L -> f (roff outs o + r) (roff ins i + c) s = 0%R).
Proof.
  intros Hw. induction L as [|K L IH] using rev_ind; intros HL ND.
  - eexists. split; [reflexivity|]. intros. split; [intros []|reflexivity].
  - destruct IH as [f [Ef Hf]].
    { intros K' H. apply HL, in_or_app. now left. } { apply NoDup_remove_1 in ND. now rewrite app_nil_r in ND. }
    apply NoDup_remove_2 in ND. rewrite app_nil_r in ND.
    assert (In K (be_pairs b)) as HK by (apply HL, in_or_app; right; now left). apply pairs_in in HK as [sb E].
    destruct blocks_facts as [B1 [B2 _]]. destruct (B2 K sb E) as [ri0 [ro0 [Hi [Ho [-> G]]]]].
    destruct (write_pair_spec w f ri0 ro0 sb Hi Ho G Hw) as [a [f' [ER [EW [V1 V2]]]]].
    exists f'. rewrite fold_left_app, Ef. cbn [fold_left rbind]. split; [exact EW|].
    intros ri ro q p o i r c s No Ni Hq Hp Hr Hc. destruct (Hf ri ro q p o i r c s No Ni Hq Hp Hr Hc) as [F1 F2].
    assert (In ri ins /\ In ro outs) as [Iri Iro] by (split; eapply nth_error_In; eassumption).
    destruct (key_eqb_spec (rname ri0, rname ro0) (rname ri, rname ro)) as [EK|NK].
    + injection EK as E1 E2. assert (ri0 = ri) by (apply Hins; auto). assert (ro0 = ro) by (apply Houts; auto). subst ri0 ro0. split.
      * intros _. exists sb, a. split; [exact G|]. split; [exact ER|]. now apply V1.
      * intros N. exfalso. apply N, in_or_app. right. now left.
    + rewrite V2.
      2:{ intros [X Y]. apply NK. f_equal; [symmetry; eapply idx_in_field; [exact Hrefl|exact Hname|exact Ni|exact Hc|exact Y]|symmetry; eapply idx_in_field; [exact Hrefl|exact Hname|exact No|exact Hr|exact X]]. }
      split.
      * intros I. apply in_app_or in I as [I|[I|[]]]; [auto|congruence].
      * intros N. apply F2. intros I. apply N, in_or_app. now left.
Qed.
Lemma filter_zero_pairs ri ro : In ri ins -> In ro outs -> ~ In (rname ri, rname ro) (be_pairs b) -> gen ri ro = Err "EmptyBasisException"%string.
Proof.
  intros Hi Ho N. destruct blocks_facts as [B1 [_ [_ B4]]]. specialize (B1 ri ro Hi Ho). destruct (gen ri ro) as [sb|x] eqn:G.
  - exfalso. apply N, pairs_in. eauto.
  - f_equal. apply (B4 ri ro x Hi Ho G).
Qed.

Lemma forward_spec w : length w = be_dimension id_eqb b -> 0 < be_dimension id_eqb b ->
  exists f, be_forward rname rsize id_eqb b w = Ok f /\
    forall ri ro q p o i r c s, nth_error outs o = Some ro -> nth_error ins i = Some ri ->
      nth_error (pos outs (rname ro)) q = Some o -> nth_error (pos ins (rname ri)) p = Some i -> r < rsize ro -> c < rsize ri ->
      match gen ri ro with
      | Ok sb => exists a, kget key_eqb (be_ranges b) (rname ri, rname ro) = Some (a, a + length (ids (rname ri, rname ro))) /\
          f (roff outs o + r) (roff ins i + c) s = bval w sb a (length (pos ins (rname ri))) q p r c s
      | Err _ => f (roff outs o + r) (roff ins i + c) s = 0%R
      end.
Proof.
  intros Hw Hd. unfold be_forward. rewrite Hw, Nat.eqb_refl. cbn [assert_]. rewrite dim_eq in Hw, Hd.
  destruct (Nat.eqb_spec (be_npairs b) 1) as [E1|N1].
  - destruct (be_pairs b) as [|K L] eqn:EP; [exfalso; destruct make_inv as [_ [_ [_ [_ [_ [_ [_ [E3 _]]]]]]]]; rewrite E3, EP in Hd; cbn in Hd; lia|].
    assert (In K (be_pairs b)) as HK by (rewrite EP; now left). apply pairs_in in HK as [sb E].
    assert (BF := blocks_facts). destruct BF as [B1 [B2 _]]. destruct (B2 K sb E) as [ri [ro [Hi [Ho [-> G]]]]].
    assert (MI := make_inv). destruct MI as [I1 [I2 [_ [EN _]]]]. rewrite E1 in EN. symmetry in EN. apply Nat.eq_mul_1 in EN as [N1 N2].
    assert (Ui : forall r, In r ins -> r = ri).
    { intros r Hr. apply (set_of_same rname rp_eqb Hrefl Hname) in Hr, Hi; auto. destruct (set_of rp_eqb ins) as [|x [|? ?]]; cbn in N1; try lia. destruct Hr as [<-|[]]. destruct Hi as [<-|[]]. reflexivity. }
    assert (Uo : forall r, In r outs -> r = ro).
    { intros r Hr. apply (set_of_same rname rp_eqb Hrefl Hname) in Hr, Ho; auto. destruct (set_of rp_eqb outs) as [|x [|? ?]]; cbn in N2; try lia. destruct Hr as [<-|[]]. destruct Ho as [<-|[]]. reflexivity. }
    assert (Si : idx ins (rname ri) = seq 0 (nsum (map rsize ins))) by (apply indices_uniform; intros r Hr; now rewrite (Ui r Hr)).
    assert (So : idx outs (rname ro) = seq 0 (nsum (map rsize outs))) by (apply indices_uniform; intros r Hr; now rewrite (Uo r Hr)).
    set (K := (rname ri, rname ro)) in *.
    destruct (start_of K sb E) as [pre [post [a [_ [_ [_ [ER LE]]]]]]]. destruct (expand_spec w K sb a Hw E ER LE) as [g [EX Hg]].
    destruct (Hgen _ _ _ Hi Ho G) as [HR [HC [_ _]]].
    assert (Li := idx_length rname rsize ins (rname ri) ri Hins Hi eq_refl). assert (Lo := idx_length rname rsize outs (rname ro) ro Houts Ho eq_refl).
    rewrite Si, seq_length in Li. rewrite So, seq_length in Lo.
    assert (NO : length (pos outs (rname ro)) <> 0).
    { intros Q. apply length_zero_iff_nil in Q. assert (X := Ho). apply In_nth_error in X as [o X]. assert (In o (pos outs (rname ro))) as Y by (apply pos_in; eauto). rewrite Q in Y. destruct Y. }
    assert (NI : length (pos ins (rname ri)) <> 0).
    { intros Q. apply length_zero_iff_nil in Q. assert (X := Hi). apply In_nth_error in X as [o X]. assert (In o (pos ins (rname ri))) as Y by (apply pos_in; eauto). rewrite Q in Y. destruct Y. }
    assert (Pi := Hposi ri Hi). assert (Po := Hposo ro Ho).
    rewrite I1, I2. cbn [K fst snd]. fold K. rewrite Si, So. rewrite !span_seq by nia. rewrite EX. cbn [rbind fst].
    assert (merged_size rname rsize b K sb = nsum (map rsize outs) * nsum (map rsize ins)) as ->.
    { unfold merged_size. rewrite I1, I2, HR, HC. change (count rname rsize outs (snd K)) with (length (pos outs (rname ro))). change (count rname rsize ins (fst K)) with (length (pos ins (rname ri))). nia. }
    rewrite Nat.eqb_refl. eexists. split; [reflexivity|]. intros ri' ro' q p o i r c s No Ni Hq Hp Hr Hc.
    assert (ri' = ri) by (apply Ui; eapply nth_error_In; eassumption). assert (ro' = ro) by (apply Uo; eapply nth_error_In; eassumption). subst ri' ro'. rewrite G.
    exists a. split; [exact ER|].
    assert (q < length (pos outs (rname ro))) as Lq by (apply nth_error_Some; congruence).
    assert (p < length (pos ins (rname ri))) as Lp by (apply nth_error_Some; congruence).
    assert (Xo := idx_nth rname rsize outs (rname ro) ro q o r Houts Ho eq_refl Hq Hr). assert (Xi := idx_nth rname rsize ins (rname ri) ri p i c Hins Hi eq_refl Hp Hc).
    rewrite So in Xo. rewrite Si in Xi. apply (nth_error_nth _ _ 0) in Xo, Xi.
    rewrite seq_nth in Xo by (rewrite Lo; apply lin_lt; auto). rewrite seq_nth in Xi by (rewrite Li; apply lin_lt; auto).
    rewrite <- Xo, <- Xi, Li, !Nat.add_0_l. etransitivity; [exact (merged_val K sb ri ro g q p r c s eq_refl HR HC Lp Hr Hc)|]; apply Hg; auto.
  - destruct (fold_pairs w Hw (be_pairs b) (fun K H => H) pairs_nodup) as [f [Ef Hf]]. exists f. split; [exact Ef|].
    intros ri ro q p o i r c s No Ni Hq Hp Hr Hc. destruct (Hf ri ro q p o i r c s No Ni Hq Hp Hr Hc) as [F1 F2].
    assert (In ri ins /\ In ro outs) as [Iri Iro] by (split; eapply nth_error_In; eassumption).
    destruct (in_dec (fun x y => reflect_dec _ _ (key_eqb_spec x y)) (rname ri, rname ro) (be_pairs b)) as [I|N].
    + destruct (F1 I) as [sb [a [G [ER V]]]]. rewrite G. eauto.
    + rewrite (filter_zero_pairs ri ro Iri Iro N). auto.
Qed.
End Main.
