From Coq Require Import Reals ZArith String List Bool Lia Permutation Sorted.
From Verif Require Import Base Spec_Fields Model_Groups Model_Rep Model_FieldType.
Import ListNotations.
Open Scope nat_scope.

(** * Generic list facts *)
Lemma skipn_skipn {A} (l : list A) a b : skipn a (skipn b l) = skipn (a + b) l.
Proof.
  revert a b. induction l as [|x l IH]; intros a b. now rewrite !skipn_nil.
  destruct b; [rewrite Nat.add_0_r; reflexivity|]. rewrite Nat.add_succ_r. cbn. apply IH.
Qed.
Lemma nth_error_ext {A} (l l' : list A) : (forall k, nth_error l k = nth_error l' k) -> l = l'.
Proof.
  revert l'. induction l as [|a l IH]; intros [|b l'] H; auto.
  - specialize (H 0); discriminate.
  - specialize (H 0); discriminate.
  - f_equal. specialize (H 0). cbn in H. congruence. apply IH. intros k. apply (H (S k)).
Qed.
Lemma assert_ok {A} b (k : result A) v : assert_ b k = Ok v -> b = true /\ k = Ok v.
Proof. destruct b; cbn; intros; [auto|discriminate]. Qed.
Lemma rbind_ok {A B} (a : result A) (f : A -> result B) v : rbind a f = Ok v -> exists u, a = Ok u /\ f u = Ok v.
Proof. destruct a; cbn; intros; [eauto|discriminate]. Qed.
Lemma rmap_all {A B} (f : A -> result B) l ys : rmap f l = Ok ys -> Forall2 (fun x y => f x = Ok y) l ys.
Proof.
  revert ys. induction l as [|a l IH]; cbn; intros ys H. injection H as <-; constructor.
  apply rbind_ok in H as (u & Hu & H). apply rbind_ok in H as (us & Hus & H). injection H as <-.
  constructor; auto.
Qed.
Lemma rmap_ok_fwd {A B} (f : A -> result B) l ys : Forall2 (fun x y => f x = Ok y) l ys -> rmap f l = Ok ys.
Proof. induction 1; cbn. reflexivity. rewrite H. cbn. rewrite IHForall2. reflexivity. Qed.

Lemma py_index_ok {A} (l : list A) i a : py_index l i = Ok a ->
  exists j, (j < length l) /\ nth_error l j = Some a /\
    Z.of_nat j = (if (i <? 0)%Z then i + Z.of_nat (length l) else i)%Z.
Proof.
  unfold py_index. set (z := (if (i <? 0)%Z then _ else _)). intros H.
  destruct ((0 <=? z)%Z && (z <? Z.of_nat (length l))%Z) eqn:E; [|discriminate].
  apply andb_prop in E as [E1 E2]. apply Z.leb_le in E1. apply Z.ltb_lt in E2.
  destruct (nth_error l (Z.to_nat z)) eqn:N; [|discriminate]. injection H as <-.
  exists (Z.to_nat z). repeat split; auto; lia.
Qed.
Lemma py_index_fwd {A} (l : list A) i j a :
  nth_error l j = Some a -> Z.of_nat j = (if (i <? 0)%Z then i + Z.of_nat (length l) else i)%Z ->
  py_index l i = Ok a.
Proof.
  intros N H. unfold py_index. rewrite <- H. assert (j < length l) by (apply nth_error_Some; congruence).
  replace ((0 <=? Z.of_nat j)%Z && (Z.of_nat j <? Z.of_nat (length l))%Z) with true.
  2:{ symmetry. apply andb_true_intro. split; [apply Z.leb_le|apply Z.ltb_lt]; lia. }
  rewrite Nat2Z.id, N. reflexivity.
Qed.

Lemma take_at_picks {A} (l : list A) (F : list nat) :
  Forall (fun f => f < length l) F -> picks l F (take_at l (map Z.of_nat F)).
Proof.
  unfold picks, take_at. induction 1 as [|f F Hf _ IH]; cbn. reflexivity.
  rewrite Nat2Z.id. destruct (nth_error l f) eqn:E.
  - cbn. rewrite IH. reflexivity.
  - apply nth_error_None in E. lia.
Qed.
Lemma picks_fun {A} (l : list A) F y y' : picks l F y -> picks l F y' -> y = y'.
Proof.
  unfold picks. intros H1 H2. rewrite <- H2 in H1. clear H2. revert y' H1.
  induction y; destruct y'; cbn; intros H; try discriminate; auto. injection H as -> H. f_equal; auto.
Qed.
Lemma picks_length {A} (l : list A) F y : picks l F y -> length y = length F.
Proof. intros H. unfold picks in H. apply (f_equal (@length _)) in H. rewrite !map_length in H. auto. Qed.
Lemma picks_app {A} (l : list A) F1 F2 y1 y2 : picks l F1 y1 -> picks l F2 y2 -> picks l (F1 ++ F2) (y1 ++ y2).
Proof. unfold picks. intros. rewrite !map_app. congruence. Qed.
Lemma picks_map {A B} (f : A -> B) l F y : picks l F y -> picks (map f l) F (map f y).
Proof.
  unfold picks. intros H. revert y H. induction F as [|a F IH]; intros [|b y] H; cbn in *; try discriminate; auto.
  injection H as H1 H2. rewrite nth_error_map, <- H1. cbn. f_equal. auto.
Qed.
Lemma picks_seq {A} (l : list A) a b : a <= b -> b <= length l -> picks l (seq a (b - a)) (sub_list l a b).
Proof.
  intros Hab Hb. unfold picks, sub_list.
  assert (forall k a, a + k <= length l -> map Some (firstn k (skipn a l)) = map (nth_error l) (seq a k)) as G.
  { clear. intros k. induction k as [|k IH]; intros a Ha; cbn. reflexivity.
    destruct (skipn a l) eqn:E.
    - apply (f_equal (@length _)) in E. rewrite skipn_length in E. cbn in E. lia.
    - assert (nth_error l a = Some a0) as ->.
      { rewrite <- (firstn_skipn a l), E, nth_error_app2; rewrite firstn_length_le by lia; [|lia].
        rewrite Nat.sub_diag. reflexivity. }
      cbn. f_equal. rewrite <- IH by lia. f_equal. f_equal.
      replace (S a) with (1 + a) by lia. rewrite <- skipn_skipn, E. reflexivity. }
  apply G. lia.
Qed.
Lemma map_nth_error_seq {A} (l : list A) : map (nth_error l) (seq 0 (length l)) = map Some l.
Proof.
  pose proof (picks_seq l 0 (length l) ltac:(lia) ltac:(lia)) as H. unfold picks in H. rewrite Nat.sub_0_r in H.
  rewrite <- H. f_equal. unfold sub_list. rewrite Nat.sub_0_r. cbn. apply firstn_all.
Qed.

(** * starts and ends *)
Section S.
Variables (GS Rp : Type) (sz : Rp -> nat) (fits : GS -> Rp -> bool)
          (gs_eqb : GS -> GS -> bool) (rp_eqb : Rp -> Rp -> bool).
Notation ftype := (ftype GS Rp).

Lemma starts_length p (l : list Rp) : length (starts_from sz p l) = length l.
Proof. revert p; induction l; cbn; auto. Qed.
Lemma ends_length p (l : list Rp) : length (ends_from sz p l) = length l.
Proof. revert p; induction l; cbn; auto. Qed.
Definition off (l : list Rp) (i : nat) : nat := nsum (map sz (firstn i l)).
Lemma off_cons (a : Rp) l i : off (a :: l) (S i) = sz a + off l i.
Proof. reflexivity. Qed.
Lemma starts_nth p (l : list Rp) i : i < length l -> nth_error (starts_from sz p l) i = Some (p + off l i).
Proof.
  revert p i; induction l as [|r l IH]; cbn [length starts_from ends_from]; intros p i Hi. lia.
  destruct i; cbn [nth_error]. unfold off; cbn. f_equal; lia. rewrite IH by lia. rewrite !off_cons. f_equal; lia.
Qed.
Lemma off_S (l : list Rp) i r : nth_error l i = Some r -> off l (S i) = off l i + sz r.
Proof.
  revert i; induction l as [|a l IH]; intros [|i] H; cbn [nth_error] in *; try discriminate.
  - injection H as ->. unfold off; cbn. lia.
  - rewrite !off_cons. rewrite (IH i H). lia.
Qed.
Lemma off_all (l : list Rp) : off l (length l) = nsum (map sz l).
Proof. unfold off. rewrite firstn_all. reflexivity. Qed.
Lemma ends_nth p (l : list Rp) i : i < length l -> nth_error (ends_from sz p l) i = Some (p + off l (S i)).
Proof.
  revert p i; induction l as [|r l IH]; cbn [length starts_from ends_from]; intros p i Hi. lia.
  destruct i; cbn [nth_error]. unfold off; cbn. f_equal; lia. rewrite IH by lia. rewrite !off_cons. f_equal; lia.
Qed.
Lemma off_mono (l : list Rp) i j : i <= j -> off l i <= off l j.
Proof.
  revert i j; induction l as [|r l IH]; intros i j H.
  - unfold off. rewrite !firstn_nil. cbn; lia.
  - destruct i. unfold off; cbn; lia. destruct j; [lia|]. rewrite !off_cons. specialize (IH i j ltac:(lia)). lia.
Qed.
Lemma off_le (l : list Rp) i : off l i <= nsum (map sz l).
Proof.
  rewrite <- (firstn_skipn i l) at 2. rewrite map_app, nsum_app. unfold off. lia.
Qed.

(** * cut *)
Lemma cut_length {A} ss (l : list A) : length (cut ss l) = length ss.
Proof. revert l; induction ss as [|a ss IH]; intros l; cbn [cut length]; [|rewrite IH]; reflexivity. Qed.
Lemma concat_cut {A} ss (l : list A) : length l = nsum ss -> concat (cut ss l) = l.
Proof.
  revert l; induction ss as [|s ss IH]; cbn; intros l H. destruct l; [auto|discriminate].
  rewrite IH. apply firstn_skipn. rewrite skipn_length. unfold nsum in *. lia.
Qed.
Lemma cut_nth {A} (rs : list Rp) (l : list A) i : length l = nsum (map sz rs) -> i < length rs ->
  nth_error (cut (map sz rs) l) i = Some (sub_list l (off rs i) (off rs (S i))).
Proof.
  revert l i; induction rs as [|r rs IH]; cbn [map cut length]; intros l i Hl Hi. lia.
  destruct i.
  - cbn [nth_error]. rewrite off_cons. unfold off, sub_list; cbn [firstn map nsum fold_right skipn]. do 2 f_equal. lia.
  - cbn [nth_error]. rewrite IH; [|rewrite skipn_length, Hl; cbn; unfold nsum; lia|lia].
    rewrite (off_cons r rs (S i)), (off_cons r rs i). unfold sub_list. f_equal. f_equal. lia.
    rewrite skipn_skipn. f_equal. lia.
Qed.
Lemma sub_list_length {A} (l : list A) a b : b <= length l -> a <= b -> length (sub_list l a b) = b - a.
Proof. intros. unfold sub_list. rewrite firstn_length_le; auto. rewrite skipn_length; lia. Qed.
Lemma sub_list_app {A} (l : list A) a b c : a <= b -> b <= c -> c <= length l ->
  sub_list l a b ++ sub_list l b c = sub_list l a c.
Proof.
  intros. eapply picks_fun with (l := l) (F := seq a (c - a)); [|apply picks_seq; lia].
  replace (c - a) with ((b - a) + (c - b)) by lia. rewrite seq_app. apply picks_app; [apply picks_seq; lia|].
  replace (a + (b - a)) with b by lia. apply picks_seq; lia.
Qed.
Lemma sub_list_nil {A} (l : list A) a : sub_list l a a = [].
Proof. unfold sub_list. rewrite Nat.sub_diag. reflexivity. Qed.

(** consecutive cut make up a contiguous range of channels *)
Lemma concat_range {A} (rs : list Rp) (l : list A) k i bs : length l = nsum (map sz rs) -> i + k <= length rs ->
  picks (cut (map sz rs) l) (seq i k) bs -> concat bs = sub_list l (off rs i) (off rs (i + k)).
Proof.
  intros Hl. revert i bs; induction k as [|k IH]; intros i bs Hi H.
  - destruct bs; [|discriminate]. rewrite Nat.add_0_r, sub_list_nil. reflexivity.
  - destruct bs as [|b bs]; [discriminate|]. unfold picks in H. cbn [map seq] in H. injection H as H1 H2.
    rewrite cut_nth in H1 by (auto; lia). injection H1 as ->. cbn [concat].
    rewrite (IH (S i) bs); [|lia|exact H2].
    rewrite sub_list_app; [f_equal; f_equal; lia| | |];
      try (apply off_mono; lia). rewrite Hl. apply off_le.
Qed.
Lemma picks_exists {A} (l : list A) F : Forall (fun f => f < length l) F -> exists y, picks l F y.
Proof. eexists. apply take_at_picks; auto. Qed.

(** * the Python slice *)
Lemma clamp_eq lo hi x : (lo <= hi)%Z -> clamp lo hi x = Z.max lo (Z.min hi x).
Proof. intros. unfold clamp. destruct (Z.ltb_spec x lo); [lia|]. destruct (Z.ltb_spec hi x); lia. Qed.

Lemma count_up (d st : Z) (k : nat) : (0 < st)%Z -> (0 < d)%Z ->
  (k < Z.to_nat ((d - 1) / st + 1)) <-> (Z.of_nat k * st < d)%Z.
Proof.
  intros Hs Hd. pose proof (Z.div_mod (d - 1) st ltac:(lia)). pose proof (Z.mod_pos_bound (d - 1) st Hs).
  pose proof (Z.div_pos (d - 1) st ltac:(lia) Hs).
  split; intros H'.
  - assert (Z.of_nat k <= (d-1)/st)%Z by lia. nia.
  - assert (Z.of_nat k <= (d-1)/st)%Z. { apply Z.div_le_lower_bound; lia. } lia.
Qed.

Lemma py_slice_spec n start stop step idx : py_slice (Z.of_nat n) start stop step = Ok idx ->
  exists F, idx = map Z.of_nat F /\ Forall (fun f => f < n) F /\ slice_selects n start stop step F.
Proof.
  unfold py_slice, slice_selects. set (st := match step with None => 1%Z | Some s => s end).
  set (N := Z.of_nat n).
  destruct (Z.eqb_spec st 0); [discriminate|].
  set (lo := if (st <? 0)%Z then (-1)%Z else 0%Z). set (hi := if (st <? 0)%Z then (N - 1)%Z else N).
  set (norm := fun x => (if (x <? 0)%Z then x + N else x)%Z).
  set (a := match start with None => if (st <? 0)%Z then hi else lo | Some x => clamp lo hi _ end).
  set (b := match stop with None => if (st <? 0)%Z then lo else hi | Some x => clamp lo hi _ end).
  set (cnt := if (st <? 0)%Z then _ else _). intros H; injection H as <-.
  assert (LH : (lo <= hi)%Z) by (unfold lo, hi, N; destruct (st <? 0)%Z; lia).
  assert (HA : (lo <= a <= hi)%Z).
  { unfold a. destruct start; [rewrite clamp_eq by auto; lia|]. destruct (st <? 0)%Z; lia. }
  assert (HB : (lo <= b <= hi)%Z).
  { unfold b. destruct stop; [rewrite clamp_eq by auto; lia|]. destruct (st <? 0)%Z; lia. }
  assert (CNT : forall k, k < Z.to_nat cnt <->
     ((0 < st -> a + Z.of_nat k * st < b) /\ (st < 0 -> a + Z.of_nat k * st > b))%Z).
  { intros k. unfold cnt. destruct (Z.ltb_spec st 0).
    - destruct (Z.ltb_spec b a).
      + rewrite count_up by lia. split; [intros; split; intros; nia|intros [_ G]; specialize (G ltac:(lia)); nia].
      + split; [cbn; lia|]. intros [_ G]. specialize (G ltac:(lia)). nia.
    - destruct (Z.ltb_spec a b).
      + rewrite count_up by lia. split; [intros; split; intros; nia|intros [G _]; specialize (G ltac:(lia)); nia].
      + split; [cbn; lia|]. intros [G _]. specialize (G ltac:(lia)). nia. }
  assert (RNG : forall k, k < Z.to_nat cnt -> (0 <= a + Z.of_nat k * st < N)%Z).
  { intros k Hk. apply CNT in Hk as [G1 G2]. unfold lo, hi in *. destruct (Z.ltb_spec st 0).
    - specialize (G2 ltac:(lia)). nia.
    - specialize (G1 ltac:(lia)). nia. }
  exists (map (fun i => Z.to_nat (a + Z.of_nat i * st)) (seq 0 (Z.to_nat cnt))). split; [|split].
  - rewrite map_map. apply map_ext_in. intros k Hk. apply in_seq in Hk. pose proof (RNG k ltac:(lia)). lia.
  - apply Forall_map, Forall_forall. intros k Hk. apply in_seq in Hk. pose proof (RNG k ltac:(lia)). unfold N in *. lia.
  - split; [auto|]. exists a, b. split; [|split; [|split]].
    + intros Hs. unfold a, b, lo, hi in *. destruct (Z.ltb_spec st 0); [lia|].
      split; [destruct start|destruct stop]; auto; rewrite clamp_eq by lia; lia.
    + intros Hs. unfold a, b, lo, hi in *. destruct (Z.ltb_spec st 0); [|lia].
      split; [destruct start|destruct stop]; auto; rewrite clamp_eq by lia; lia.
    + intros k f E. rewrite nth_error_map in E. destruct (nth_error (seq 0 (Z.to_nat cnt)) k) as [k'|] eqn:E'; [|discriminate].
      assert (k < Z.to_nat cnt). { rewrite <- (seq_length (Z.to_nat cnt) 0). apply nth_error_Some. congruence. }
      rewrite (nth_error_nth' _ 0) in E' by (rewrite seq_length; auto). rewrite seq_nth in E' by auto.
      injection E' as <-. injection E as <-. pose proof (RNG k H). cbn [Nat.add]. lia.
    + intros k. rewrite map_length, seq_length. apply CNT.
Qed.
Lemma slice_selects_fun n start stop step F F' :
  slice_selects n start stop step F -> slice_selects n start stop step F' -> F = F'.
Proof.
  unfold slice_selects. set (st := match step with None => 1%Z | Some s => s end).
  intros (N0 & a & b & P1 & P2 & P3 & P4) (_ & a' & b' & Q1 & Q2 & Q3 & Q4).
  assert (a = a' /\ b = b') as [<- <-].
  { destruct (Z.lt_trichotomy st 0) as [L|[L|L]]; [|lia|].
    - destruct (P2 L), (Q2 L); split; congruence.
    - destruct (P1 L), (Q1 L); split; congruence. }
  assert (forall k, k < length F <-> k < length F') as L. { intros k; rewrite P4, Q4; reflexivity. }
  apply nth_error_ext. intros k. destruct (nth_error F k) eqn:E.
  - assert (k < length F) by (apply nth_error_Some; congruence). apply L in H. apply nth_error_Some in H.
    destruct (nth_error F' k) eqn:E'; [|congruence]. apply P3 in E. apply Q3 in E'. f_equal. lia.
  - apply nth_error_None in E. symmetry. apply nth_error_None. specialize (L (length F)) as L1.
    specialize (L (length F')). lia.
Qed.
(** a slice bound: the default, or the given value with negative values counted from the end *)
Definition bound (n : nat) (o : option Z) (d : Z) : Z :=
  match o with None => d | Some x => if (x <? 0)%Z then (x + Z.of_nat n)%Z else x end.
Lemma slice_selects_unit n start stop step : (step = None \/ step = Some 1%Z) ->
  forall s e, s <= n -> e <= n ->
  (Z.of_nat s = bound n start 0%Z) ->
  (Z.of_nat e = bound n stop (Z.of_nat n)) ->
  slice_selects n start stop step (seq s (e - s)).
Proof.
  intros Hst s e Hs He H1 H2. unfold bound in *. unfold slice_selects.
  assert (ST : match step with None => 1%Z | Some s => s end = 1%Z) by (destruct Hst; subst; auto). rewrite ST.
  split; [lia|]. exists (Z.of_nat s), (Z.of_nat e). split; [|split; [lia|split]].
  - intros _. split; [destruct start|destruct stop]; lia.
  - intros k f E. assert (k < length (seq s (e - s))) by (apply nth_error_Some; congruence). rewrite seq_length in H.
    rewrite (nth_error_nth' _ 0) in E by (rewrite seq_length; auto). rewrite seq_nth in E by auto. injection E as <-. lia.
  - intros k. rewrite seq_length. lia.
Qed.

(** * getitem *)
Section T.
Context {A : Type}.
Notation gtensor := (gtensor GS Rp A).
Definition wf_ft (t : ftype) : Prop := ft_reps t <> [] /\ forallb (fits (ft_gs t)) (ft_reps t) = true.
Definition wf (x : gtensor) : Prop := wf_ft (gt_type x) /\ length (gt_data x) = ft_size sz (gt_type x).

Lemma mk_ftype_ok gs reps t : mk_ftype fits gs reps = Ok t -> t = MkFT gs reps /\ wf_ft t.
Proof.
  unfold mk_ftype. intros H. apply assert_ok in H as [H1 H]. apply assert_ok in H as [H2 H]. injection H as <-.
  split; [auto|]. split; cbn; auto. destruct reps; [cbn in H1; discriminate|discriminate].
Qed.
Lemma mk_ftype_fwd gs reps : reps <> [] -> forallb (fits gs) reps = true -> mk_ftype fits gs reps = Ok (MkFT gs reps).
Proof.
  intros H1 H2. unfold mk_ftype. rewrite H2. destruct reps; [congruence|]. reflexivity.
Qed.
Lemma mk_gt_ok (d : list A) (t : ftype) x : mk_gt sz d t = Ok x -> x = MkGT d t /\ length d = ft_size sz t.
Proof.
  unfold mk_gt. intros H. apply assert_ok in H as [H1 H]. injection H as <-. apply Z.eqb_eq in H1. split; auto. lia.
Qed.
Lemma mk_gt_fwd (d : list A) (t : ftype) : length d = ft_size sz t -> mk_gt sz d t = Ok (MkGT d t).
Proof. intros H. unfold mk_gt. rewrite H, Z.eqb_refl. reflexivity. Qed.

Definition selects (n : nat) (i : chan_idx) (F : list nat) : Prop :=
  match i with IInt z => int_selects n z F | ISlice a b c => slice_selects n a b c F end.

(** exactly the channels and representations of the fields [F] of [x] *)
Definition picks_fields (x : gtensor) (F : list nat) (y : gtensor) : Prop :=
  ft_gs (gt_type y) = ft_gs (gt_type x) /\
  picks (ft_reps (gt_type x)) F (ft_reps (gt_type y)) /\
  exists bs, picks (cut (map sz (ft_reps (gt_type x))) (gt_data x)) F bs /\ gt_data y = concat bs.

Lemma picks_blocks_length (rs : list Rp) (l : list A) F reps bs : length l = nsum (map sz rs) ->
  picks rs F reps -> picks (cut (map sz rs) l) F bs -> length (concat bs) = nsum (map sz reps).
Proof.
  intros Hl. revert reps bs. induction F as [|f F IH]; intros [|r reps] [|b bs] H1 H2; cbn in *; try discriminate; auto.
  unfold picks in H1, H2. cbn in H1, H2. injection H1 as E1 H1. injection H2 as E2 H2.
  rewrite app_length, (IH reps bs) by auto. f_equal.
  assert (f < length rs) by (apply nth_error_Some; congruence).
  rewrite cut_nth in E2 by auto. injection E2 as ->.
  rewrite sub_list_length.
  - rewrite (off_S rs f r) by auto. lia.
  - rewrite Hl. apply off_le.
  - apply off_mono; lia.
Qed.
Lemma forallb_picks (f : Rp -> bool) l F y : forallb f l = true -> picks l F y -> forallb f y = true.
Proof.
  intros H. revert y. unfold picks. induction F as [|a F IH]; intros [|b y] P; cbn in *; try discriminate; auto.
  injection P as E P. rewrite IH by auto. rewrite forallb_forall in H. rewrite H. reflexivity.
  eapply nth_error_In; eauto.
Qed.
Lemma fits_picks gs (l : list Rp) F y : forallb (fits gs) l = true -> picks l F y -> forallb (fits gs) y = true.
Proof. apply forallb_picks. Qed.

Lemma contiguous_picks (x : gtensor) s k y t' : wf x -> s + k <= length (ft_reps (gt_type x)) ->
  ft_gs t' = ft_gs (gt_type x) -> picks (ft_reps (gt_type x)) (seq s k) (ft_reps t') ->
  y = MkGT (sub_list (gt_data x) (off (ft_reps (gt_type x)) s) (off (ft_reps (gt_type x)) (s + k))) t' ->
  picks_fields x (seq s k) y.
Proof.
  intros [_ W] Hk Hgs Hp ->. split; [exact Hgs|]. split; [exact Hp|]. cbn [gt_data].
  destruct (picks_exists (cut (map sz (ft_reps (gt_type x))) (gt_data x)) (seq s k)) as [bs Hbs].
  { apply Forall_forall. intros f Hf. apply in_seq in Hf. rewrite cut_length, map_length. lia. }
  exists bs. split; auto. symmetry. apply concat_range; auto.
Qed.

Lemma seq_nonempty s k : seq s k <> [] -> 0 < k.
Proof. destruct k; [cbn; congruence|lia]. Qed.

(** the double wrap-around of a negative int *)
Definition no_wrap (n : nat) (i : chan_idx) : Prop :=
  match i with IInt z => (- Z.of_nat n - 1 <= z)%Z | _ => True end.

Lemma py_slice_unit n start stop step idx s e : (step = None \/ step = Some 1%Z) -> s <= n -> e <= n ->
  (Z.of_nat s = bound n start 0%Z) ->
  (Z.of_nat e = bound n stop (Z.of_nat n)) ->
  py_slice (Z.of_nat n) start stop step = Ok idx -> idx = map Z.of_nat (seq s (e - s)).
Proof.
  intros Hst Hs He H1 H2 H. apply py_slice_spec in H as (F & -> & _ & HF). f_equal.
  eapply slice_selects_fun; eauto. apply slice_selects_unit; auto.
Qed.

Lemma getitem_unit (x : gtensor) start stop step y :
  wf x -> (step = None \/ step = Some 1%Z) ->
  getitem sz fits x (ISlice start stop step) = Ok y ->
  let n := length (ft_reps (gt_type x)) in
  exists s e, s < e /\ e <= n /\
  (Z.of_nat s = bound n start 0%Z) /\
  (Z.of_nat e = bound n stop (Z.of_nat n)) /\
  picks_fields x (seq s (e - s)) y.
Proof.
  intros W Hst. unfold getitem. cbn [int_to_slice].
  set (t := gt_type x). set (rs := ft_reps t).
  replace (match step with None => true | Some s => (s =? 1)%Z end) with true by (destruct Hst; subst; auto).
  unfold ft_len. fold rs.
  set (s0 := match start with None => 0%Z | Some s => s end).
  set (e0 := match stop with None => Z.of_nat (length rs) | Some e => e end).
  intros H. apply rbind_ok in H as (a & Ha & H). apply rbind_ok in H as (b & Hb & H).
  apply rbind_ok in H as (t' & Ht & H). apply mk_gt_ok in H as [-> HL].
  apply py_index_ok in Ha as (s & Hs & Ha & Es). apply py_index_ok in Hb as (e & He & Hb & Ee).
  unfold fields_start, fields_end in *. fold rs in Ha, Hb, Hs, He, Es, Ee.
  rewrite starts_length in Hs, Es. rewrite ends_length in He, Ee.
  rewrite starts_nth in Ha by auto. rewrite ends_nth in Hb by auto. injection Ha as <-. injection Hb as <-.
  cbn [Nat.add] in *. cbn zeta.
  destruct ((s0 =? 0)%Z && (e0 =? Z.of_nat (length rs))%Z) eqn:E.
  - injection Ht as <-. apply andb_prop in E as [E1 E2]. apply Z.eqb_eq in E1, E2.
    rewrite E1 in Es. rewrite E2 in Ee. cbn in Es.
    destruct (Z.ltb_spec (Z.of_nat (length rs) - 1) 0); [lia|].
    exists 0, (length rs). split; [lia|]. split; [lia|].
    split; [unfold s0 in E1; destruct start; subst; auto|].
    split; [unfold e0 in E2; unfold bound; destruct stop; subst; auto; destruct (Z.ltb_spec (Z.of_nat (length rs)) 0); lia|].
    replace s with 0 by lia. replace (S e) with (length rs) by lia. rewrite Nat.sub_0_r.
    eapply contiguous_picks; eauto; fold t rs.
    unfold picks. symmetry. apply map_nth_error_seq.
  - apply rbind_ok in Ht as (idx & Hidx & Ht). apply mk_ftype_ok in Ht as [-> Wt].
    assert (Hstart : (Z.of_nat s = bound (length rs) start 0%Z)).
    { unfold s0 in Es. unfold bound. destruct start; cbn in Es; lia. }
    assert (Hstop : e0 <> 0%Z -> (Z.of_nat (S e) = bound (length rs) stop (Z.of_nat (length rs)))).
    { intros Z0. unfold e0, bound in *. destruct stop.
      - destruct (Z.ltb_spec z 0); destruct (Z.ltb_spec (z - 1) 0); lia.
      - destruct (Z.ltb_spec (Z.of_nat (length rs) - 1) 0); lia. }
    destruct (Z.eq_dec e0 0) as [Z0|Z0].
    + exfalso. destruct stop as [z|]; unfold e0 in Z0; [|lia]. subst z.
      eapply py_slice_unit with (s := s) (e := 0) in Hidx; try lia; auto.
      subst idx. destruct Wt as [Wt _]. apply Wt. cbn. reflexivity.
    + specialize (Hstop Z0). eapply py_slice_unit with (s := s) (e := S e) in Hidx; try lia; auto.
      subst idx. assert (s < S e).
      { destruct Wt as [Wt _]. cbn [ft_reps] in Wt. destruct (le_lt_dec (S e) s); [|auto]. exfalso. apply Wt.
        replace (S e - s) with 0 by lia. reflexivity. }
      exists s, (S e). split; [auto|]. split; [lia|]. split; [auto|]. split; [auto|].
      eapply (contiguous_picks x s (S e - s) _ (MkFT (ft_gs t) (take_at rs (map Z.of_nat (seq s (S e - s))))));
        fold t rs; try lia; auto.
      2:{ replace (s + (S e - s)) with (S e) by lia. reflexivity. }
      cbn [ft_reps]. apply take_at_picks. apply Forall_forall. intros f Hf. apply in_seq in Hf. lia.
Qed.

Lemma selects_channels (rs : list Rp) (l : list A) F idxs : length l = nsum (map sz rs) ->
  Forall2 (fun f y => rbind (py_index (starts_from sz 0 rs) f) (fun a =>
                      rbind (py_index (ends_from sz 0 rs) f) (fun b =>
                      Ok (map Z.of_nat (seq a (b - a))))) = Ok y) (map Z.of_nat F) idxs ->
  forall bs, picks (cut (map sz rs) l) F bs -> take_at l (concat idxs) = concat bs.
Proof.
  intros Hl. revert idxs. induction F as [|f F IH]; intros idxs H bs Hb.
  - inversion H; subst. destruct bs; [reflexivity|discriminate].
  - inversion H as [|? ys ? ys' E1 E2]; subst. destruct bs as [|b bs]; [discriminate|].
    unfold picks in Hb. cbn [map] in Hb. injection Hb as E Hb.
    cbn [concat]. unfold take_at. rewrite map_app, concat_app. f_equal; [|apply IH; auto].
    apply rbind_ok in E1 as (a & Ha & E1). apply rbind_ok in E1 as (c & Hc & E1). injection E1 as <-.
    apply py_index_ok in Ha as (s & Hs & Ha & Es). apply py_index_ok in Hc as (e & He & Hc & Ee).
    destruct (Z.ltb_spec (Z.of_nat f) 0); [lia|]. assert (s = f) by lia. assert (e = f) by lia. subst.
    rewrite starts_length in Hs. rewrite starts_nth in Ha by auto. rewrite ends_nth in Hc by auto.
    injection Ha as <-. injection Hc as <-. rewrite cut_nth in E by auto. injection E as ->.
    cbn [Nat.add]. fold (take_at l (map Z.of_nat (seq (off rs f) (off rs (S f) - off rs f)))).
    pose proof (off_le rs (S f)). pose proof (off_mono rs f (S f) ltac:(lia)).
    eapply picks_fun; [apply take_at_picks|apply picks_seq; lia].
    apply Forall_forall. intros k Hk. apply in_seq in Hk. lia.
Qed.

Lemma getitem_spec (x : gtensor) i y : wf x -> no_wrap (length (ft_reps (gt_type x))) i ->
  getitem sz fits x i = Ok y ->
  exists F, selects (length (ft_reps (gt_type x))) i F /\ F <> [] /\ picks_fields x F y.
Proof.
  intros W NW H. destruct i as [z|start stop step].
  - set (n := length (ft_reps (gt_type x))) in *.
    set (idx := if (z <? 0)%Z then (Z.of_nat n + z)%Z else z).
    assert (H' : getitem sz fits x (ISlice (Some idx) (Some (idx + 1)%Z) (Some 1%Z)) = Ok y) by exact H.
    apply getitem_unit in H' as (s & e & Hse & He & Hs & He' & P); auto. fold n in He, Hs, He'.
    cbn [no_wrap] in NW. unfold idx, bound in Hs, He'.
    assert (Z.of_nat s = if (z <? 0)%Z then (Z.of_nat n + z)%Z else z).
    { destruct (Z.ltb_spec z 0).
      - destruct (Z.ltb_spec (Z.of_nat n + z) 0); [|lia].
        destruct (Z.ltb_spec (Z.of_nat n + z + 1) 0); lia.
      - destruct (Z.ltb_spec z 0); lia. }
    assert (e = S s).
    { destruct (Z.ltb_spec z 0).
      - destruct (Z.ltb_spec (Z.of_nat n + z + 1) 0); lia.
      - destruct (Z.ltb_spec (z + 1) 0); lia. }
    subst e. replace (S s - s) with 1 in P by lia. cbn [seq] in P.
    exists [s]. split; [|split; [discriminate|auto]]. cbn. unfold int_selects.
    destruct (Z.ltb_spec z 0).
    + right. split; [lia|]. f_equal. lia.
    + left. split; [lia|]. f_equal. lia.
  - destruct (match step with None => true | Some s => (s =? 1)%Z end) eqn:ST.
    + assert (step = None \/ step = Some 1%Z) as HST.
      { destruct step as [s|]; auto. apply Z.eqb_eq in ST. subst; auto. }
      apply getitem_unit in H as (s & e & Hse & He & Hs & He' & P); auto.
      exists (seq s (e - s)). split; [|split; [|auto]].
      * cbn. apply slice_selects_unit; auto. lia.
      * destruct (e - s) eqn:E; [lia|discriminate].
    + unfold getitem in H. cbn [int_to_slice] in H. rewrite ST in H.
      apply rbind_ok in H as (idx & Hidx & H). apply rbind_ok in H as (idxs & Hidxs & H).
      apply rbind_ok in H as (t' & Ht & H). apply mk_ftype_ok in Ht as [-> [Wt _]]. apply mk_gt_ok in H as [-> HL].
      cbn [ft_reps] in Wt.
      apply py_slice_spec in Hidx as (F & -> & HF & HS). exists F. split; [exact HS|].
      apply rmap_all in Hidxs. destruct W as [_ W].
      destruct (picks_exists (cut (map sz (ft_reps (gt_type x))) (gt_data x)) F) as [bs Hbs].
      { rewrite cut_length, map_length. auto. }
      split. { intros ->. apply Wt. reflexivity. }
      split; [reflexivity|]. split; [apply take_at_picks; auto|]. cbn [gt_data].
      exists bs. split; auto. eapply selects_channels; eauto.
Qed.
End T.
End S.
