(** Proofs about [disentangle]. *)
From Coq Require Import Reals ZArith String List Bool Lia Lra Permutation.
From Verif Require Import Base Model_Groups Model_Rep Model_BatchNorm Spec_Fieldwise Proofs_BatchNorm7 Model_Disentangle Proofs_Disentangle Proofs_Disentangle2.
Import ListNotations.
Open Scope R_scope.
Open Scope nat_scope.

Lemma concat_length {A} (l : list (list A)) : length (concat l) = nsum (map (@length A) l).
Proof. induction l as [|a l IH]; [reflexivity|]. cbn [concat map]. rewrite app_length, IH. reflexivity. Qed.
Section Columns.
Context {G : Type}.
Fixpoint irr_of (l : list (irrep G)) (c : nat) : nat :=
  match l with [] => 0 | a :: l' => if c <? ir_size a then 0 else S (irr_of l' (c - ir_size a)) end.
Lemma irr_of_at l : forall i ir e, nth_error l i = Some ir -> e < ir_size ir -> irr_of l (ioff l i + e) = i.
Proof.
  induction l as [|a l IH]; intros [|i] ir e H He; try discriminate.
  - injection H as ->. cbn [irr_of]. change (ioff (ir :: l) 0) with 0. cbn [Nat.add]. destruct (Nat.ltb_spec e (ir_size ir)); [auto|lia].
  - cbn [irr_of]. unfold ioff in *. cbn [firstn map]. unfold nsum in *. cbn [fold_right]. destruct (Nat.ltb_spec (ir_size a + fold_right Nat.add 0 (map ir_size (firstn i l)) + e) (ir_size a)); [lia|].
    f_equal. rewrite <- (IH i ir e H He) at 2. f_equal. lia.
Qed.
Lemma bdiag_in (l : list (irrep G)) g : forall i ir e e', nth_error l i = Some ir -> e < ir_size ir -> e' < ir_size ir ->
  bdiag (Model_Rep.blocks l g) (ioff l i + e) (ioff l i + e') = ir_mat ir g e e'.
Proof.
  induction l as [|a l IH]; intros [|i] ir e e' H He He'; try discriminate.
  - injection H as ->. change (ioff (ir :: l) 0) with 0. cbn [Nat.add Model_Rep.blocks map bdiag]. destruct (Nat.ltb_spec e (ir_size ir)), (Nat.ltb_spec e' (ir_size ir)); try lia. auto.
  - unfold ioff in *. cbn [firstn map Model_Rep.blocks bdiag]. unfold nsum in *. cbn [fold_right]. cbn [nth_error] in H. specialize (IH i ir e e' H He He').
    destruct (Nat.ltb_spec (ir_size a + fold_right Nat.add 0 (map ir_size (firstn i l)) + e) (ir_size a)); [lia|]. destruct (Nat.ltb_spec (ir_size a + fold_right Nat.add 0 (map ir_size (firstn i l)) + e') (ir_size a)); [lia|].
    rewrite <- IH. unfold Model_Rep.blocks. f_equal; lia.
Qed.
Lemma bdiag_out (l : list (irrep G)) g : forall c c', irr_of l c <> irr_of l c' -> bdiag (Model_Rep.blocks l g) c c' = 0%R.
Proof.
  induction l as [|a l IH]; intros c c' H; [reflexivity|]. cbn [irr_of] in H. cbn [Model_Rep.blocks map bdiag]. destruct (c <? ir_size a), (c' <? ir_size a); auto.
  contradiction.
Qed.
Variable r : rep G.
Notation irs := (rp_irreps r).
Notation ni := (length irs).
Notation n := (rp_size r).
Notation lab := (snd (dis_components r)).
Definition lr (i : nat) : nat := lab (ni + i).
Definition lc (c : nat) : nat := lab (irr_of irs c).
Hypothesis ACC : rep_accepted r.

Lemma irreps_pos_off i : irreps_pos irs i = ioff irs i.
Proof. reflexivity. Qed.
Lemma block_cols_eq b : block_cols r b = filter (fun c => lc c =? b) (seq 0 n).
Proof.
  unfold block_cols, block_irreps. assert (Q : forall k, k <= ni -> concat (map (irrep_cols r) (filter (fun i => lab i =? b) (seq 0 k))) = filter (fun c => lc c =? b) (seq 0 (ioff irs k))).
  - induction k as [|k IH]; intros L; [reflexivity|]. destruct (nth_error irs k) as [ir|] eqn:E; [|apply nth_error_None in E; lia].
    rewrite seq_S, filter_app, map_app, concat_app, IH by lia. rewrite (ioff_S _ _ _ E), seq_app, filter_app. f_equal. cbn [Nat.add filter].
    assert (W : forall m s, s + m <= ir_size ir -> filter (fun c => lc c =? b) (seq (ioff irs k + s) m) = if lab k =? b then seq (ioff irs k + s) m else []).
    { induction m as [|m IHm]; intros s Hs; [destruct (_ =? _); reflexivity|]. cbn [seq filter]. replace (S (ioff irs k + s)) with (ioff irs k + S s) by lia. rewrite IHm by lia.
      unfold lc at 1. rewrite (irr_of_at irs k ir s E) by lia. destruct (lab k =? b); reflexivity. }
    specialize (W (ir_size ir) 0 ltac:(lia)). rewrite Nat.add_0_r in W. rewrite W. destruct (lab k =? b); [|reflexivity]. cbn [map concat]. rewrite app_nil_r.
    unfold irrep_cols. rewrite E. reflexivity.
  - rewrite (Q ni (le_n _)). unfold rp_size, isizes, ioff. rewrite firstn_all. reflexivity.
Qed.
Lemma dis_zero i j : i < n -> j < n -> lr i <> lc j -> rp_cob r i j = 0%R.
Proof.
  intros Hi Hj N. destruct (Req_EM_T (rp_cob r i j) 0%R) as [|NZ]; [auto|]. exfalso. apply N. destruct (channel_irrep irs j Hj) as (k & ir & e & Hk & He & Ej).
  assert (Lk : k < ni) by (apply nth_error_Some; congruence).
  unfold lr, lc. rewrite Ej, (irr_of_at irs k ir e Hk He). symmetry. apply label_same; [lia|lia|]. apply reach_edge. unfold dis_graph.
  destruct (Nat.ltb_spec k ni); [|lia]. destruct (Nat.ltb_spec (ni + i) ni); [lia|]. unfold uses. rewrite Hk. replace (ni + i - ni) with i by lia.
  apply existsb_exists. exists e. split; [apply in_seq; lia|]. unfold nonzero. rewrite irreps_pos_off, <- Ej. destruct (Req_EM_T (rp_cob r i j) 0%R); auto.
Qed.
Lemma d_zero g i j : i < n -> j < n -> lc i <> lc j -> bdiag (Model_Rep.blocks irs g) i j = 0%R.
Proof. intros Hi Hj N. apply bdiag_out. intros E. apply N. unfold lc. congruence. Qed.

Lemma rows_len b : length (block_rows r b) = length (block_cols r b).
Proof. rewrite block_cols_eq. unfold block_rows. exact (lab_count n (rp_cob r) (rp_inv r) lr lc ACC dis_zero b). Qed.
Lemma pick_sizes idx : nsum (map ir_size (pick irs idx)) = length (concat (map (irrep_cols r) idx)).
Proof.
  induction idx as [|i idx IH]; [reflexivity|]. unfold pick in *. cbn [flat_map map concat]. rewrite map_app, nsum_app, app_length, IH. f_equal.
  unfold irrep_cols. destruct (nth_error irs i) as [ir|]; [|reflexivity]. rewrite seq_length. unfold nsum. cbn. lia.
Qed.
Lemma block_size b : rp_size (block_rep r b) = length (block_rows r b).
Proof. unfold rp_size, isizes. cbn [block_rep rp_irreps]. rewrite pick_sizes, rows_len. reflexivity. Qed.
Lemma block_accepted b : rep_accepted (block_rep r b).
Proof.
  unfold rep_accepted. rewrite block_size. cbn [block_rep rp_cob rp_inv]. unfold submatrix. rewrite block_cols_eq. exact (lab_inverse n (rp_cob r) (rp_inv r) lr lc ACC dis_zero b).
Qed.
Lemma block_diag b g i j : i < length (block_cols r b) -> j < length (block_cols r b) ->
  bdiag (Model_Rep.blocks (rp_irreps (block_rep r b)) g) i j = bdiag (Model_Rep.blocks irs g) (nth i (block_cols r b) 0) (nth j (block_cols r b) 0).
Proof.
  intros Hi Hj. set (D := bdiag (Model_Rep.blocks irs g)). unfold block_cols in *. set (ps := map (irrep_cols r) (block_irreps r b)) in *.
  rewrite <- (bdiag_pieces D ps); auto.
  - assert (E : map fst (Model_Rep.blocks (rp_irreps (block_rep r b)) g) = map (@length nat) ps /\
      Forall2 (fun p q => fst p = fst q /\ meq (fst p) (fst p) (snd p) (snd q)) (Model_Rep.blocks (rp_irreps (block_rep r b)) g) (map (fun p => (length p, fun i j => D (nth i p 0) (nth j p 0))) ps)).
    { clear Hi Hj. subst ps. cbn [block_rep rp_irreps]. assert (IN : forall i, In i (block_irreps r b) -> i < ni) by (unfold block_irreps; intros k Hk; apply filter_In in Hk as [Hk _]; apply in_seq in Hk; lia).
      induction (block_irreps r b) as [|k idx IH]; [split; [reflexivity|constructor]|]. destruct IH as [IH1 IH2]; [intros; apply IN; cbn; auto|].
      unfold pick in *. cbn [flat_map map]. destruct (nth_error irs k) as [ir|] eqn:Ek; [|apply nth_error_None in Ek; specialize (IN k (or_introl eq_refl)); lia].
      assert (EC : irrep_cols r k = seq (irreps_pos irs k) (ir_size ir)) by (unfold irrep_cols; rewrite Ek; auto). rewrite EC.
      cbn [app Model_Rep.blocks map fst]. rewrite seq_length. split; [f_equal; exact IH1|]. constructor; [|exact IH2]. cbn [fst snd]. split; [auto|]. intros x y Hx Hy.
      rewrite !seq_nth by auto. rewrite irreps_pos_off. symmetry. apply bdiag_in; auto. }
    destruct E as [E1 E2]. apply (bdiag_ext _ _ E2). all: unfold bsize; rewrite E1. all: rewrite concat_length in *; auto.
  - clear Hi Hj. subst ps. unfold block_irreps. assert (ND : NoDup (filter (fun i => lab i =? b) (seq 0 ni))) by (apply NoDup_filter, seq_NoDup).
    induction ND as [|k idx Hk ND IH]; [constructor|]. cbn [map]. constructor; auto. rewrite Forall_map, Forall_forall. intros k' Hk' x y Hx Hy.
    assert (Q : forall k x, In x (irrep_cols r k) -> irr_of irs x = k).
    { intros q z Hz. unfold irrep_cols in Hz. destruct (nth_error irs q) as [ir|] eqn:Eq; [|destruct Hz]. apply in_seq in Hz. rewrite irreps_pos_off in Hz.
      replace z with (ioff irs q + (z - ioff irs q)) by lia. apply (irr_of_at irs q ir); auto. lia. }
    apply Q in Hx, Hy. assert (k <> k') by (intros ->; auto). unfold D. split; apply bdiag_out; congruence.
Qed.
Lemma block_mat b g i j : i < length (block_rows r b) -> j < length (block_rows r b) -> rp_mat (block_rep r b) g i j = rp_mat r g (nth i (block_rows r b) 0) (nth j (block_rows r b) 0).
Proof.
  intros Hi Hj. unfold rp_mat. rewrite block_size.
  pose proof (rho_block n (rp_cob r) (rp_inv r) lr lc ACC dis_zero (bdiag (Model_Rep.blocks irs g)) b i j) as RB.
  change (filter (fun i0 : nat => lr i0 =? b) (seq 0 n)) with (block_rows r b) in RB. rewrite <- block_cols_eq in RB. rewrite <- (RB Hi Hj).
  assert (ME : forall m A A' B B' i j, meq m m A A' -> meq m m B B' -> i < m -> j < m -> mmul m A B i j = mmul m A' B' i j).
  { intros m A A' B B' x y HA HB Hx Hy. unfold mmul. apply rsum_ext. intros k Hk. rewrite HA, HB by auto. reflexivity. }
  apply ME; auto; [|intros x y Hx Hy; reflexivity]. intros x y Hx Hy. apply ME; auto; [intros x' y' Hx' Hy'; reflexivity|]. intros x' y' Hx' Hy'. rewrite rows_len in Hx', Hy'. apply block_diag; auto.
Qed.

(** * The loop *)
Lemma pos_in_nth a l : forall q, pos_in a l = Some q -> q < length l /\ nth q l 0 = a.
Proof.
  induction l as [|c l IH]; intros q H; [discriminate|]. cbn [pos_in] in H. destruct (Nat.eqb_spec a c) as [->|N]; [injection H as <-; cbn; split; [lia|auto]|].
  destruct (pos_in a l) as [q'|]; [|discriminate]. injection H as <-. destruct (IH q' eq_refl). cbn. split; [lia|auto].
Qed.
Lemma pos_in_none' a l : pos_in a l = None -> ~ In a l.
Proof. induction l as [|c l IH]; intros H; [auto|]. cbn [pos_in] in H. destruct (Nat.eqb_spec a c) as [->|N]; [discriminate|]. destruct (pos_in a l); [discriminate|]. intros [E|I]; [congruence|]. apply IH; auto. Qed.
Lemma put_eye_at M cur rows i j : NoDup rows -> put_eye M cur rows i j =
  if ((cur <=? i) && (i <? cur + length rows))%bool then (if existsb (Nat.eqb j) rows then (if nth (i - cur) rows 0 =? j then 1%R else 0%R) else M i j) else M i j.
Proof.
  intros ND. unfold put_eye. destruct ((cur <=? i) && (i <? cur + length rows))%bool eqn:E; [|auto]. apply andb_true_iff in E as [E1 E2]. apply Nat.leb_le in E1. apply Nat.ltb_lt in E2.
  destruct (pos_in j rows) as [q|] eqn:P.
  - destruct (pos_in_nth _ _ _ P) as [L <-]. rewrite (proj2 (existsb_exists (Nat.eqb (nth q rows 0)) rows)) by (exists (nth q rows 0); split; [apply nth_In; auto|apply Nat.eqb_refl]).
    destruct (Nat.eqb_spec q (i - cur)) as [->|N]; [rewrite Nat.eqb_refl; auto|]. destruct (Nat.eqb_spec (nth (i - cur) rows 0) (nth q rows 0)) as [E|]; [|auto].
    exfalso. apply N. symmetry. apply (proj1 (NoDup_nth rows 0) ND); auto. lia.
  - apply pos_in_none' in P. destruct (existsb (Nat.eqb j) rows) eqn:X; [|auto]. apply existsb_exists in X as (x & X1 & X2). apply Nat.eqb_eq in X2. subst x. contradiction.
Qed.
Lemma rows_nodup b : NoDup (block_rows r b).
Proof. apply NoDup_filter, seq_NoDup. Qed.
Lemma dis_loop_ok bs : forall cur M, (forall i j, cur <= i -> M i j = 0%R) -> exists M', dis_loop r bs cur M = Ok (M', map (block_rep r) bs) /\
  forall i j, M' i j = if cur <=? i then (if i <? cur + length (concat (map (block_rows r) bs)) then (if nth (i - cur) (concat (map (block_rows r) bs)) 0 =? j then 1%R else 0%R) else 0%R) else M i j.
Proof.
  induction bs as [|b bs IH]; intros cur M Z.
  - exists M. split; [reflexivity|]. intros i j. cbn [map concat length]. destruct (Nat.leb_spec cur i) as [L|L]; [|auto]. destruct (Nat.ltb_spec i (cur + 0)); [lia|]. apply Z; auto.
  - cbn [dis_loop map concat]. pose proof (block_size b) as BS. unfold rp_size, isizes in BS. cbn [block_rep rp_irreps] in BS. rewrite BS, rows_len, Nat.eqb_refl. cbn [assert_].
    assert (PE : forall i j, put_eye M cur (block_rows r b) i j = if cur <=? i then (if i <? cur + length (block_rows r b) then (if nth (i - cur) (block_rows r b) 0 =? j then 1%R else 0%R) else 0%R) else M i j).
    { intros i j. rewrite put_eye_at by apply rows_nodup. destruct (Nat.leb_spec cur i) as [L|L]; cbn [andb]; [|auto]. destruct (Nat.ltb_spec i (cur + length (block_rows r b))) as [L'|L']; [|apply Z; auto].
      destruct (existsb (Nat.eqb j) (block_rows r b)) eqn:X; [auto|]. rewrite Z by auto. destruct (Nat.eqb_spec (nth (i - cur) (block_rows r b) 0) j) as [<-|]; [|auto]. exfalso.
      assert (existsb (Nat.eqb (nth (i - cur) (block_rows r b) 0)) (block_rows r b) = true); [|congruence]. apply existsb_exists. eexists. split; [|apply Nat.eqb_refl]. apply nth_In. lia. }
    rewrite <- rows_len. destruct (IH (cur + length (block_rows r b)) (put_eye M cur (block_rows r b))) as (M' & HM & MV).
    { intros i j L. rewrite PE. destruct (Nat.leb_spec cur i); [|lia]. destruct (Nat.ltb_spec i (cur + length (block_rows r b))); [lia|auto]. }
    exists M'. rewrite HM. cbn [rbind fst snd]. split; [reflexivity|]. intros i j. rewrite MV, app_length.
    destruct (Nat.leb_spec (cur + length (block_rows r b)) i) as [L|L].
    + destruct (Nat.leb_spec cur i); [|lia]. rewrite app_nth2 by lia. replace (i - cur - length (block_rows r b)) with (i - (cur + length (block_rows r b))) by lia. rewrite Nat.add_assoc. reflexivity.
    + rewrite PE. destruct (Nat.leb_spec cur i) as [L2|L2]; [|auto]. destruct (Nat.ltb_spec i (cur + length (block_rows r b))); [|lia].
      destruct (Nat.ltb_spec i (cur + (length (block_rows r b) + length (concat (map (block_rows r) bs))))); [|lia]. rewrite app_nth1 by lia. reflexivity.
Qed.
Definition order : list nat := concat (map (block_rows r) (seq 0 (fst (dis_components r)))).
Lemma in_rows b i : In i (block_rows r b) <-> i < n /\ lr i = b.
Proof. unfold block_rows. rewrite filter_In, in_seq, Nat.eqb_eq. unfold lr. intuition lia. Qed.
Lemma order_nodup : NoDup order.
Proof.
  unfold order. assert (Q : forall bs, NoDup bs -> NoDup (concat (map (block_rows r) bs))); [|apply Q, seq_NoDup].
  induction 1 as [|b bs Hb ND IH]; [constructor|]. cbn [map concat].
  assert (Z : forall l1 l2 : list nat, NoDup l1 -> NoDup l2 -> (forall x, In x l1 -> ~ In x l2) -> NoDup (l1 ++ l2)).
  { intros l1 l2 H1 H2. induction H1 as [|a l1 Ha H1 IH1]; intros D; [auto|]. cbn. constructor; [rewrite in_app_iff; intros [|I]; [auto|apply (D a); cbn; auto]|]. apply IH1. intros; apply D; cbn; auto. }
  apply Z; auto using rows_nodup. intros x Hx I. apply in_concat in I as (l & I1 & I2). apply in_map_iff in I1 as (b' & <- & I1). apply in_rows in Hx, I2. assert (b = b') by (destruct Hx, I2; congruence). subst b'. auto.
Qed.
Lemma order_in i : In i order <-> i < n.
Proof.
  unfold order. rewrite in_concat. split.
  - intros (l & I1 & I2). apply in_map_iff in I1 as (b' & <- & I1). apply in_rows in I2. tauto.
  - intros H. exists (block_rows r (lr i)). split; [|apply in_rows; auto]. apply in_map_iff. exists (lr i). split; [auto|]. apply in_seq. split; [lia|]. cbn. apply label_lt. lia.
Qed.
Lemma order_perm : Permutation order (seq 0 n).
Proof. apply NoDup_Permutation; [apply order_nodup|apply seq_NoDup|]. intros i. rewrite order_in, in_seq. lia. Qed.
Lemma order_len : length order = n.
Proof. rewrite (Permutation_length order_perm), seq_length. auto. Qed.
Lemma order_bij : bij n (fun i => nth i order 0).
Proof.
  split.
  - intros i Hi. apply order_in, nth_In. rewrite order_len. auto.
  - intros i j Hi Hj. apply (proj1 (NoDup_nth order 0) order_nodup); rewrite order_len; auto.
Qed.
Lemma order_mat g i j : i < n -> j < n ->
  bdiag (map (fun q => (rp_size q, rp_mat q g)) (map (block_rep r) (seq 0 (fst (dis_components r))))) i j = rp_mat r g (nth i order 0) (nth j order 0).
Proof.
  intros Hi Hj. unfold order. rewrite <- (bdiag_pieces (rp_mat r g)).
  - rewrite map_map. apply (bdiag_ext (map (fun b => (rp_size (block_rep r b), rp_mat (block_rep r b) g)) (seq 0 (fst (dis_components r))))).
    + rewrite map_map. induction (seq 0 (fst (dis_components r))) as [|b bs IH]; [constructor|]. cbn [map]. constructor; auto. cbn [fst snd]. rewrite block_size. split; [auto|]. intros x y Hx Hy. apply block_mat; auto.
    + unfold bsize. rewrite map_map. cbn [fst]. rewrite (map_ext _ _ block_size). rewrite <- order_len in Hi. unfold order in Hi. rewrite concat_length, map_map in Hi. exact Hi.
    + unfold bsize. rewrite map_map. cbn [fst]. rewrite (map_ext _ _ block_size). rewrite <- order_len in Hj. unfold order in Hj. rewrite concat_length, map_map in Hj. exact Hj.
  - assert (ND := seq_NoDup (fst (dis_components r)) 0). induction ND as [|b bs Hb ND IH]; [constructor|]. cbn [map]. constructor; auto.
    rewrite Forall_map, Forall_forall. intros b' Hb' x y Hx Hy. apply in_rows in Hx as [X1 X2], Hy as [Y1 Y2]. assert (lr x <> lr y) by (intros E; apply Hb; congruence).
    unfold rp_mat. split; apply (rho_zero n (rp_cob r) (rp_inv r) lr lc ACC dis_zero _ (d_zero g)); auto.
  - fold order. rewrite order_len. auto.
  - fold order. rewrite order_len. auto.
Qed.
Lemma disentangle_ok : exists P, disentangle r = Ok (P, map (block_rep r) (seq 0 (fst (dis_components r)))) /\
  forall i j, i < n -> P i j = if j =? nth i order 0 then 1%R else 0%R.
Proof.
  unfold disentangle. destruct (dis_loop_ok (seq 0 (fst (dis_components r))) 0 (fun _ _ => 0%R)) as (M & HM & MV); [auto|]. exists M. split; [exact HM|]. intros i j Hi. rewrite MV. cbn [Nat.leb].
  fold order. rewrite order_len, Nat.sub_0_r. cbn [Nat.add]. destruct (Nat.ltb_spec i n); [|lia]. rewrite (Nat.eqb_sym j). reflexivity.
Qed.
End Columns.
