(** Kernels between arbitrary representations (C23) and the order of the basis elements (C27). *)
From Coq Require Import Reals ZArith String List Bool Lia Lra Setoid Morphisms Sorted.
From Verif Require Import Base Spec Model_Groups Model_Rep Model_GSpace Spec_GSpace Model_Kernels Spec_Kernels
  Proofs_Groups Proofs_Cont Proofs_Irreps Proofs_Rep Proofs_Restrict Proofs_GSpace Proofs_Trig Proofs_Kernels Proofs_Kernels2 Proofs_Kernels3.
Import ListNotations.
Open Scope R_scope.

(** ** blocks of a block-diagonal matrix *)
Definition inb (o n i : nat) : bool := ((o <=? i) && (i <? o + n))%nat%bool.
Lemma inb_true o n i : inb o n i = true <-> (o <= i < o + n)%nat.
Proof. unfold inb. rewrite andb_true_iff, Nat.leb_le, Nat.ltb_lt. tauto. Qed.
Lemma inb_false o n i : inb o n i = false <-> (i < o \/ o + n <= i)%nat.
Proof. unfold inb. rewrite andb_false_iff, Nat.leb_gt, Nat.ltb_ge. lia. Qed.

Lemma place_inb k M r c : place k M r c =
  if (inb (bk_outpos k) (bk_outsize k) r && inb (bk_inpos k) (bk_insize k) c)%bool then M (r - bk_outpos k)%nat (c - bk_inpos k)%nat else 0.
Proof. unfold place, inb. rewrite !andb_assoc. reflexivity. Qed.

Lemma bdiag_row l1 n A l2 i j : inb (bsize l1) n i = true ->
  bdiag (l1 ++ (n, A) :: l2) i j = if inb (bsize l1) n j then A (i - bsize l1)%nat (j - bsize l1)%nat else 0.
Proof.
  revert i j. induction l1 as [|[m B] l1 IH]; intros i j H; apply inb_true in H.
  - unfold bsize in *. cbn [app bdiag map nsum fold_right] in *. rewrite !Nat.sub_0_r. unfold inb. cbn [Nat.leb andb].
    destruct (Nat.ltb_spec i n); [|lia]. destruct (Nat.ltb_spec j n); destruct (Nat.ltb_spec j (0 + n)); auto; lia.
  - unfold bsize in *. cbn [app bdiag map nsum fold_right fst] in *. set (o := fold_right Nat.add O (map fst l1)) in *.
    change (nsum (map fst l1)) with o in *.
    destruct (Nat.ltb_spec i m); [lia|]. destruct (Nat.ltb_spec j m).
    + assert (E : inb (m + o) n j = false) by (apply inb_false; lia). rewrite E. auto.
    + rewrite IH by (apply inb_true; lia).
      assert (E : inb o n (j - m) = inb (m + o) n j).
      { destruct (inb (m + o) n j) eqn:E; [apply inb_true in E; apply inb_true; lia|apply inb_false in E; apply inb_false; lia]. }
      rewrite E. destruct (inb (m + o) n j); auto. f_equal; lia.
Qed.
Lemma bdiag_col l1 n A l2 i j : inb (bsize l1) n j = true ->
  bdiag (l1 ++ (n, A) :: l2) i j = if inb (bsize l1) n i then A (i - bsize l1)%nat (j - bsize l1)%nat else 0.
Proof.
  intros H. change (bdiag (l1 ++ (n, A) :: l2) i j) with (mtr (bdiag (l1 ++ (n, A) :: l2)) j i).
  rewrite bdiag_tr, map_app. cbn [map fst snd].
  assert (E : bsize l1 = bsize (map (fun p => (fst p, mtr (snd p))) l1)) by (unfold bsize; rewrite map_map; reflexivity).
  rewrite E in *. rewrite bdiag_row by auto. reflexivity.
Qed.

Lemma rsum_range N o n f : (o + n <= N)%nat -> (forall i, (i < N)%nat -> inb o n i = false -> f i = 0) ->
  rsum N f = rsum n (fun i => f (o + i)%nat).
Proof.
  intros H Z. replace N with (o + (n + (N - o - n)))%nat by lia. rewrite !rsum_split.
  rewrite (rsum_0 o) by (intros i Hi; apply Z; [lia|apply inb_false; lia]).
  rewrite (rsum_0 (N - o - n)) by (intros i Hi; apply Z; [lia|apply inb_false; lia]). ring.
Qed.

Lemma bsize_app l1 p l2 : bsize (l1 ++ p :: l2) = (bsize l1 + (fst p + bsize l2))%nat.
Proof. unfold bsize. rewrite map_app. cbn [map]. induction (map fst l1); cbn; [reflexivity|]. unfold nsum in *. cbn. lia. Qed.

Lemma place_left l1 n A l2 k M C : bk_outpos k = bsize l1 -> bk_outsize k = n ->
  let l := l1 ++ (n, A) :: l2 in
  meq (bsize l) C (mmul (bsize l) (bdiag l) (place k M)) (place k (mmul n A M)).
Proof.
  intros Ho Hn l i j Hi Hj. unfold mmul at 1. rewrite place_inb, Ho, Hn.
  assert (B : bsize l = (bsize l1 + (n + bsize l2))%nat) by (unfold l; rewrite bsize_app; reflexivity).
  rewrite (rsum_range _ (bsize l1) n); [|lia|intros x Hx Hf; rewrite place_inb, Ho, Hn, Hf; cbn [andb]; ring].
  destruct (inb (bk_inpos k) (bk_insize k) j) eqn:Ej.
  - destruct (inb (bsize l1) n i) eqn:Ei; cbn [andb].
    + unfold mmul. apply rsum_ext. intros x Hx. unfold l. rewrite bdiag_row by auto. rewrite place_inb, Ho, Hn, Ej.
      assert (E : inb (bsize l1) n (bsize l1 + x) = true) by (apply inb_true; lia). rewrite E. cbn [andb].
      replace (bsize l1 + x - bsize l1)%nat with x by lia. reflexivity.
    + apply rsum_0. intros x Hx. unfold l. rewrite bdiag_col by (apply inb_true; lia). rewrite Ei. ring.
  - rewrite andb_false_r. apply rsum_0. intros x Hx. rewrite place_inb, Ej, andb_false_r. ring.
Qed.
Lemma place_right l1 n A l2 k M R' : bk_inpos k = bsize l1 -> bk_insize k = n ->
  let l := l1 ++ (n, A) :: l2 in
  meq R' (bsize l) (mmul (bsize l) (place k M) (bdiag l)) (place k (mmul n M A)).
Proof.
  intros Ho Hn l i j Hi Hj. unfold mmul at 1. rewrite place_inb, Ho, Hn.
  assert (B : bsize l = (bsize l1 + (n + bsize l2))%nat) by (unfold l; rewrite bsize_app; reflexivity).
  rewrite (rsum_range _ (bsize l1) n); [|lia|intros x Hx Hf; rewrite place_inb, Ho, Hn, Hf, andb_false_r; ring].
  destruct (inb (bk_outpos k) (bk_outsize k) i) eqn:Ei; cbn [andb].
  - destruct (inb (bsize l1) n j) eqn:Ej.
    + unfold mmul. apply rsum_ext. intros x Hx. unfold l. rewrite bdiag_col by auto. rewrite place_inb, Ho, Hn, Ei.
      assert (E : inb (bsize l1) n (bsize l1 + x) = true) by (apply inb_true; lia). rewrite E. cbn [andb].
      replace (bsize l1 + x - bsize l1)%nat with x by lia. reflexivity.
    + apply rsum_0. intros x Hx. unfold l. rewrite bdiag_row by (apply inb_true; lia). rewrite Ej. ring.
  - apply rsum_0. intros x Hx. rewrite place_inb, Ei. cbn [andb]. ring.
Qed.
Lemma place_ext k M M' : meq (bk_outsize k) (bk_insize k) M M' -> forall r c, place k M r c = place k M' r c.
Proof.
  intros H r c. rewrite !place_inb. destruct (inb (bk_outpos k) (bk_outsize k) r) eqn:E1; auto.
  destruct (inb (bk_inpos k) (bk_insize k) c) eqn:E2; auto. cbn [andb].
  apply inb_true in E1, E2. apply H; lia.
Qed.

(** ** which block the elements belong to *)
Lemma sk_write_cases l count idx :
  (forall a, sk_write l count idx a = mzero) \/
  exists k b i, In k l /\ bk_basis k = Some b /\ (i < kb_dim b)%nat /\ forall a, sk_write l count idx a = place k (kb_sample b i a).
Proof.
  revert count. induction l as [|k l IH]; intros count; cbn [sk_write]; [left; auto|].
  destruct (bk_basis k) as [b|] eqn:E.
  - destruct ((count <=? idx) && (idx <? count + kb_dim b))%nat%bool eqn:Ei.
    + right. exists k, b, (idx - count)%nat. split; [left; auto|]. split; auto. split; auto.
      apply andb_true_iff in Ei. destruct Ei as [E1 E2]. apply Nat.leb_le in E1. apply Nat.ltb_lt in E2. lia.
    + destruct (IH (count + kb_dim b)%nat) as [H|[k' [b' [i [I H]]]]]; [left; auto|right]. exists k', b', i. split; [right; auto|auto].
  - destruct (IH count) as [H|[k' [b' [i [I H]]]]]; [left; auto|right]. exists k', b', i. split; [right; auto|auto].
Qed.

Section SK.
Context {G : Type}.
Variables (mk : irrep G -> irrep G -> result kbasis) (rin rout : rep G).

Definition block_of (k : skblock) (l1 : list (irrep G)) (i : irrep G) (l2 m1 : list (irrep G)) (o : irrep G) (m2 : list (irrep G)) : Prop :=
  bk_ii k = length l1 /\ bk_oo k = length m1 /\ bk_inpos k = isizes l1 /\ bk_outpos k = isizes m1 /\
  bk_insize k = ir_size i /\ bk_outsize k = ir_size o /\ try_basis mk i o = Ok (bk_basis k).

Lemma isizes_app (l1 l2 : list (irrep G)) : isizes (l1 ++ l2) = (isizes l1 + isizes l2)%nat.
Proof. unfold isizes. rewrite map_app. induction (map ir_size l1); cbn; auto. unfold nsum in *. cbn. lia. Qed.

Lemma sk_row_in i l1 ms bs k m0 :
  rmap (fun o => try_basis mk i o) ms = Ok bs ->
  In k (sk_row (length l1) (isizes l1) (ir_size i) (length m0) (isizes m0) (map ir_size ms) bs) ->
  exists m1 o m2, ms = m1 ++ o :: m2 /\ block_of k l1 i [] (m0 ++ m1) o m2.
Proof.
  revert bs m0. induction ms as [|o ms IH]; intros bs m0 H I; cbn in H.
  - injection H as <-. destruct I.
  - destruct (try_basis mk i o) as [b|] eqn:E; [|discriminate]. cbn [rbind] in H.
    destruct (rmap (fun o => try_basis mk i o) ms) as [bs'|] eqn:E'; [|discriminate]. cbn [rbind] in H. injection H as <-.
    cbn [map sk_row] in I. destruct I as [<-|I].
    + exists [], o, ms. split; auto. rewrite app_nil_r. unfold block_of. cbn. auto 10.
    + replace (S (length m0)) with (length (m0 ++ [o])) in I by (rewrite app_length; cbn; lia).
      replace (isizes m0 + ir_size o)%nat with (isizes (m0 ++ [o])) in I by (rewrite isizes_app; unfold isizes; cbn; lia).
      destruct (IH bs' (m0 ++ [o]) eq_refl I) as [m1 [o' [m2 [-> B]]]].
      exists (o :: m1), o', m2. split; auto. rewrite <- app_assoc in B. exact B.
Qed.

Lemma sk_rows_in ls ms bss k l0 :
  rmap (fun i => rmap (fun o => try_basis mk i o) ms) ls = Ok bss ->
  In k (sk_rows (length l0) (isizes l0) (map ir_size ls) (map ir_size ms) bss) ->
  exists l1 i l2 m1 o m2, ls = l1 ++ i :: l2 /\ ms = m1 ++ o :: m2 /\ block_of k (l0 ++ l1) i l2 m1 o m2.
Proof.
  revert bss l0. induction ls as [|i ls IH]; intros bss l0 H I; cbn in H.
  - injection H as <-. destruct I.
  - destruct (rmap (fun o => try_basis mk i o) ms) as [bs|] eqn:E; [|discriminate]. cbn [rbind] in H.
    destruct (rmap (fun i => rmap (fun o => try_basis mk i o) ms) ls) as [bss'|] eqn:E'; [|discriminate]. cbn [rbind] in H. injection H as <-.
    cbn [map sk_rows] in I. apply in_app_or in I. destruct I as [I|I].
    + destruct (sk_row_in i l0 ms bs k [] E I) as [m1 [o [m2 [-> B]]]]. exists [], i, ls, m1, o, m2.
      split; auto. split; auto. rewrite app_nil_r. exact B.
    + replace (S (length l0)) with (length (l0 ++ [i])) in I by (rewrite app_length; cbn; lia).
      replace (isizes l0 + ir_size i)%nat with (isizes (l0 ++ [i])) in I by (rewrite isizes_app; unfold isizes; cbn; lia).
      destruct (IH bss' (l0 ++ [i]) eq_refl I) as [l1 [i' [l2 [m1 [o [m2 [-> [Em B]]]]]]]].
      exists (i :: l1), i', l2, m1, o, m2. split; auto. split; auto. rewrite <- app_assoc in B. exact B.
Qed.

Lemma sk_make_inv sk : sk_make mk rin rout = Ok sk ->
  sk_in sk = rin /\ sk_out sk = rout /\
  sk_Ainv sk = (if is_eye (rp_size rin) (rp_inv rin) then None else Some (rp_inv rin)) /\
  sk_B sk = (if is_eye (rp_size rout) (rp_cob rout) then None else Some (rp_cob rout)) /\
  rmap (fun i => rmap (fun o => try_basis mk i o) (rp_irreps rout)) (rp_irreps rin) = Ok (sk_bases sk) /\
  (0 < sk_dim sk)%nat.
Proof.
  unfold sk_make. intros H. destruct (rmap _ (rp_irreps rin)) as [bs|] eqn:E; [|discriminate]. cbn [rbind] in H.
  match type of H with (if ?b then _ else _) = _ => destruct b eqn:Z end; [discriminate|]. injection H as <-.
  apply Nat.eqb_neq in Z. unfold sk_dim. cbn [sk_in sk_out sk_Ainv sk_B sk_bases].
  do 5 (split; [auto; fail|]). lia.
Qed.

Lemma is_eye_meq n A : is_eye n A = true -> meq n n A mid.
Proof.
  unfold is_eye. rewrite forallb_forall. intros H i j Hi Hj. specialize (H i ltac:(apply in_seq; lia)).
  rewrite forallb_forall in H. specialize (H j ltac:(apply in_seq; lia)). destruct (Req_EM_T (A i j) (mid i j)); auto. discriminate.
Qed.

(** leaving out an identity change of basis changes nothing *)
Lemma sk_sample_form sk idx a : sk_make mk rin rout = Ok sk ->
  meq (rp_size rout) (rp_size rin) (sk_sample sk idx a)
      (mmul (rp_size rin) (mmul (rp_size rout) (rp_cob rout) (sk_write (sk_blocks sk) 0 idx a)) (rp_inv rin)).
Proof.
  intros H. destruct (sk_make_inv sk H) as [E1 [E2 [E3 [E4 _]]]]. unfold sk_sample. rewrite E1, E2, E3, E4.
  set (M := sk_write _ _ _ _). set (ni := rp_size rin). set (no := rp_size rout).
  destruct (is_eye ni (rp_inv rin)) eqn:I1; destruct (is_eye no (rp_cob rout)) eqn:I2;
  try apply is_eye_meq in I1; try apply is_eye_meq in I2.
  - symmetry. transitivity (mmul ni (mmul no mid M) mid).
    + apply mmul_compat; [apply mmul_compat; [auto|reflexivity]|auto].
    + etransitivity; [apply mmul_id_r|apply mmul_id_l].
  - symmetry. transitivity (mmul ni (mmul no (rp_cob rout) M) mid); [apply mmul_compat; [reflexivity|auto]|apply mmul_id_r].
  - symmetry. apply mmul_compat; [|reflexivity]. transitivity (mmul no mid M); [apply mmul_compat; [auto|reflexivity]|apply mmul_id_l].
  - reflexivity.
Qed.
End SK.

(** ** the constraint for the assembled kernel *)
Section Assembled.
Context {G : Type}.
Variables (s : gspace) (code : G -> gelt) (el : G -> Prop) (inv : G -> G).
Variables (mk : irrep G -> irrep G -> result kbasis) (rin rout : rep G).
Hypothesis Hmk : forall i o b, In i (rp_irreps rin) -> In o (rp_irreps rout) -> mk i o = Ok b -> all_constraints s code el inv o i b.
Hypothesis Ain : rep_accepted rin.
Hypothesis Aout : rep_accepted rout.
Variable sk : skbasis G.
Hypothesis Hsk : sk_make mk rin rout = Ok sk.

Let W idx a := sk_write (sk_blocks sk) 0 idx a.
Let D (r : rep G) g := bdiag (blocks (rp_irreps r) g).

Lemma bsize_blocks (l : list (irrep G)) g : bsize (blocks l g) = isizes l.
Proof. unfold bsize, blocks, isizes. rewrite map_map. reflexivity. Qed.

(** the kernel matrices x |-> x' related by g *)
Lemma write_constraint idx g a a' : el g ->
  (exists x x', a = Some x /\ a' = Some x' /\ moves_angle s (code g) x x') \/ (a = None /\ a' = None) ->
  meq (rp_size rout) (rp_size rin) (W idx a')
      (mmul (rp_size rin) (mmul (rp_size rout) (D rout g) (W idx a)) (D rin (inv g))).
Proof.
  intros Hg Ha. unfold W. destruct (sk_write_cases (sk_blocks sk) 0 idx) as [Z|[k [b [i0 [I [Eb [Hi E]]]]]]].
  - rewrite !Z. intros i j Hi Hj. unfold mzero at 1. symmetry. unfold mmul at 1. apply rsum_0. intros x Hx.
    unfold mmul. rewrite rsum_0; [ring|]. intros y Hy. unfold mzero. ring.
  - rewrite !E. destruct (sk_make_inv mk rin rout sk Hsk) as [E1 [E2 [_ [_ [ER _]]]]].
    unfold sk_blocks in I. rewrite E1, E2 in I.
    destruct (sk_rows_in mk (rp_irreps rin) (rp_irreps rout) (sk_bases sk) k [] ER I) as [l1 [i [l2 [m1 [o [m2 [Li [Lo B]]]]]]]].
    cbn [app] in B. destruct B as (_ & _ & B1 & B2 & B3 & B4 & B5).
    assert (Mb : mk i o = Ok b).
    { unfold try_basis in B5. rewrite Eb in B5. destruct (mk i o) as [b'|x]; [congruence|]. destruct (String.eqb x _); discriminate. }
    assert (C := Hmk i o b ltac:(rewrite Li; apply in_elt) ltac:(rewrite Lo; apply in_elt) Mb i0 Hi).
    assert (K : meq (ir_size o) (ir_size i) (kb_sample b i0 a')
        (mmul (ir_size i) (mmul (ir_size o) (ir_mat o g) (kb_sample b i0 a)) (ir_mat i (inv g)))).
    { destruct C as [C1 C2]. destruct Ha as [[x [x' [-> [-> Hm]]]]|[-> ->]]; [apply C1; auto|apply C2; auto]. }
    unfold D. rewrite Li, Lo. unfold blocks. rewrite !map_app. cbn [map].
    fold (blocks l1 (inv g)) (blocks l2 (inv g)) (blocks m1 g) (blocks m2 g).
    set (li := blocks l1 (inv g) ++ (ir_size i, ir_mat i (inv g)) :: blocks l2 (inv g)).
    set (lo := blocks m1 g ++ (ir_size o, ir_mat o g) :: blocks m2 g).
    assert (Si : rp_size rin = bsize li) by (unfold rp_size, li; rewrite Li, bsize_app, isizes_app, !bsize_blocks; reflexivity).
    assert (So : rp_size rout = bsize lo) by (unfold rp_size, lo; rewrite Lo, bsize_app, isizes_app, !bsize_blocks; reflexivity).
    rewrite Si, So.
    transitivity (mmul (bsize li) (place k (mmul (ir_size o) (ir_mat o g) (kb_sample b i0 a))) (bdiag li)).
    + transitivity (place k (mmul (ir_size i) (mmul (ir_size o) (ir_mat o g) (kb_sample b i0 a)) (ir_mat i (inv g)))).
      * intros r c _ _. apply place_ext. rewrite B3, B4. exact K.
      * symmetry. apply place_right; [rewrite bsize_blocks; auto|auto].
    + apply mmul_compat; [|reflexivity]. symmetry. apply place_left; [rewrite bsize_blocks; auto|auto].
Qed.

Lemma sample_constraint idx g a a' : el g ->
  (exists x x', a = Some x /\ a' = Some x' /\ moves_angle s (code g) x x') \/ (a = None /\ a' = None) ->
  meq (rp_size rout) (rp_size rin) (sk_sample sk idx a')
      (mmul (rp_size rin) (mmul (rp_size rout) (rp_mat rout g) (sk_sample sk idx a)) (rp_mat rin (inv g))).
Proof.
  intros Hg Ha. set (ni := rp_size rin). set (no := rp_size rout).
  assert (C := write_constraint idx g a a' Hg Ha).
  assert (F := sk_sample_form mk rin rout sk idx). fold ni no in F, C.
  destruct Ain as [_ Ai2]. destruct Aout as [_ Ao2]. fold ni in Ai2. fold no in Ao2.
  etransitivity; [apply (F a' Hsk)|].
  change (sk_write (sk_blocks sk) 0 idx a') with (W idx a'). 
  transitivity (mmul ni (mmul no (rp_cob rout) (mmul ni (mmul no (D rout g) (W idx a)) (D rin (inv g)))) (rp_inv rin)).
  { apply mmul_compat; [apply mmul_compat; [reflexivity|exact C]|reflexivity]. }
  symmetry.
  transitivity (mmul ni (mmul no (rp_mat rout g) (mmul ni (mmul no (rp_cob rout) (W idx a)) (rp_inv rin))) (rp_mat rin (inv g))).
  { apply mmul_compat; [apply mmul_compat; [reflexivity|apply (F a Hsk)]|reflexivity]. }
  unfold rp_mat. fold ni no. change (bdiag (blocks (rp_irreps rout) g)) with (D rout g). change (bdiag (blocks (rp_irreps rin) (inv g))) with (D rin (inv g)).
  set (B := rp_cob rout). set (Bi := rp_inv rout) in *. set (A := rp_cob rin) in *. set (Ai := rp_inv rin) in *.
  set (Do := D rout g). set (Di := D rin (inv g)). set (M := W idx a).
  transitivity (mmul no B (mmul no Do (mmul no Bi (mmul no B (mmul ni M (mmul ni Ai (mmul ni A (mmul ni Di Ai)))))))).
  { etransitivity; [apply mmul_compat; [apply mmul_assoc_eq|apply mmul_assoc_eq]|].
    etransitivity; [apply mmul_assoc_eq|].
    etransitivity; [apply mmul_assoc_eq|]. apply mmul_compat; [reflexivity|].
    apply mmul_compat; [reflexivity|].
    etransitivity; [apply mmul_assoc_eq|]. apply mmul_compat; [reflexivity|].
    etransitivity; [apply mmul_assoc_eq|].
    etransitivity; [apply mmul_assoc_eq|]. reflexivity. }
  transitivity (mmul no B (mmul no Do (mmul ni M (mmul ni Di Ai)))).
  2:{ symmetry. etransitivity; [apply mmul_assoc_eq|]. apply mmul_compat; [reflexivity|].
      etransitivity; [apply mmul_assoc_eq|]. etransitivity; [apply mmul_assoc_eq|]. reflexivity. }
  apply mmul_compat; [reflexivity|]. apply mmul_compat; [reflexivity|].
  assert (E1 : meq ni ni (mmul ni Ai (mmul ni A (mmul ni Di Ai))) (mmul ni Di Ai)).
  { transitivity (mmul ni (mmul ni Ai A) (mmul ni Di Ai)); [symmetry; apply mmul_assoc_eq|].
    transitivity (mmul ni mid (mmul ni Di Ai)); [apply mmul_compat; [auto|reflexivity]|apply mmul_id_l]. }
  transitivity (mmul no Bi (mmul no B (mmul ni M (mmul ni Di Ai)))).
  { apply mmul_compat; [reflexivity|]. apply mmul_compat; [reflexivity|]. apply mmul_compat; [reflexivity|exact E1]. }
  transitivity (mmul no (mmul no Bi B) (mmul ni M (mmul ni Di Ai))); [symmetry; apply mmul_assoc_eq|].
  transitivity (mmul no mid (mmul ni M (mmul ni Di Ai))); [apply mmul_compat; [auto|reflexivity]|apply mmul_id_l].
Qed.

(** *** polar coordinates *)
Hypothesis Hlin : forall g p t, el g -> plane_action s (code g) (t * fst p, t * snd p) =
  (t * fst (plane_action s (code g) p), t * snd (plane_action s (code g) p)).
Hypothesis Hiso : forall g p, el g -> radius_of (plane_action s (code g) p) = radius_of p.

Lemma arctan2_polar p : 0 < radius_of p -> p = (radius_of p * cos (arctan2 (snd p) (fst p)), radius_of p * sin (arctan2 (snd p) (fst p))).
Proof.
  destruct p as [x y]. unfold radius_of; cbn [fst snd]. intros HR. set (r := sqrt (x * x + y * y)) in *.
  assert (R2 : r * r = x * x + y * y) by (apply sqrt_sqrt; nra).
  assert (Pos : forall x y, 0 < x -> sqrt (x * x + y * y) * cos (atan (y / x)) = x /\ sqrt (x * x + y * y) * sin (atan (y / x)) = y).
  { clear. intros x y Hx. rewrite cos_atan, sin_atan. unfold Rsqr.
    assert (E : sqrt (x * x + y * y) = x * sqrt (1 + y / x * (y / x))).
    { rewrite <- (sqrt_square x) at 3 by lra. rewrite <- sqrt_mult by (try nra; assert (0 <= y / x * (y / x)) by nra; lra).
      f_equal. field. lra. }
    rewrite E. assert (0 < sqrt (1 + y / x * (y / x))) by (apply sqrt_lt_R0; nra). split; field; lra. }
  unfold arctan2. destruct (Rlt_dec 0 x) as [Hx|Hx].
  - destruct (Pos x y Hx) as [A B]. fold r in A, B. rewrite A, B. reflexivity.
  - destruct (Rlt_dec x 0) as [Hx'|Hx'].
    + destruct (Pos (- x) (- y) ltac:(lra)) as [A B]. replace (- x * - x + - y * - y) with (x * x + y * y) in A, B by ring.
      fold r in A, B. replace (- y / - x) with (y / x) in A, B by (field; lra).
      destruct (Rle_dec 0 y).
      * rewrite neg_cos, neg_sin. f_equal; lra.
      * replace (atan (y / x) - PI) with (atan (y / x) + PI - 2 * 1 * PI) by ring.
        assert (CC : cong2pi (atan (y / x) + PI - 2 * 1 * PI) (atan (y / x) + PI)) by (exists (-1)%Z; lra).
        rewrite (cos_cong _ _ CC), (sin_cong _ _ CC), neg_cos, neg_sin. f_equal; lra.
    + assert (x = 0) as -> by lra. replace (0 * 0 + y * y) with (y * y) in * by ring.
      destruct (Rlt_dec 0 y) as [Hy|Hy].
      * assert (Er : r = y) by (unfold r; replace (0 * 0 + y * y) with (y * y) by ring; apply sqrt_square; lra). rewrite Er, cos_PI2, sin_PI2. f_equal; ring.
      * destruct (Rlt_dec y 0) as [Hy'|Hy'].
        -- assert (Er : r = - y) by (unfold r; replace (0 * 0 + y * y) with (- y * - y) by ring; apply sqrt_square; lra).
           rewrite Er, cos_neg, sin_neg, cos_PI2, sin_PI2. f_equal; ring.
        -- assert (y = 0) as -> by lra. exfalso. nra.
Qed.

Lemma angle_moves g p : el g ->
  (exists x x', angle_of p = Some x /\ angle_of (plane_action s (code g) p) = Some x' /\ moves_angle s (code g) x x') \/
  (angle_of p = None /\ angle_of (plane_action s (code g) p) = None).
Proof.
  intros Hg. unfold angle_of. rewrite (Hiso g p Hg). destruct (Rlt_dec (radius_of p) (1 / 1000000000)) as [H|H]; [right; auto|left].
  set (q := plane_action s (code g) p). assert (RP : 0 < radius_of p) by lra.
  exists (arctan2 (snd p) (fst p)), (arctan2 (snd q) (fst q)). split; auto. split; auto.
  assert (Rq : radius_of q = radius_of p) by (apply Hiso; auto).
  assert (P1 := arctan2_polar p RP). assert (P2 := arctan2_polar q ltac:(rewrite Rq; auto)). rewrite Rq in P2.
  set (a := arctan2 (snd p) (fst p)) in *. set (a' := arctan2 (snd q) (fst q)) in *. set (r := radius_of p) in *.
  unfold moves_angle. assert (Hl := Hlin g (cos a, sin a) r Hg). cbn [fst snd] in Hl. rewrite <- P1 in Hl. fold q in Hl.
  rewrite P2 in Hl. injection Hl as L1 L2. destruct (plane_action s (code g) (cos a, sin a)) as [u v]. cbn [fst snd] in *.
  f_equal; symmetry; [apply (Rmult_eq_reg_l r)|apply (Rmult_eq_reg_l r)]; lra.
Qed.

Lemma polar_constraint radial adim idx :
  planar_constraint s code el inv (rp_size rout) (rp_size rin) (rp_mat rout) (rp_mat rin)
    (polar_sample radial adim (sk_sample sk) idx).
Proof.
  intros g p Hg i j Hi Hj. unfold polar_sample. rewrite (Hiso g p Hg).
  rewrite (sample_constraint (idx mod adim) g _ _ Hg (angle_moves g p Hg) i j Hi Hj).
  set (x := radial (idx / adim)%nat (radius_of p)). unfold mmul. rewrite <- rsum_scal. apply rsum_ext. intros k Hk.
  rewrite <- Rmult_assoc, <- rsum_scal. f_equal. apply rsum_ext. intros l Hl. ring.
Qed.
End Assembled.

(** ** the six kinds of plane action are linear isometries *)
Definition lin_iso {G} (s : gspace) (code : G -> gelt) (el : G -> Prop) : Prop :=
  (forall g p t, el g -> plane_action s (code g) (t * fst p, t * snd p) =
     (t * fst (plane_action s (code g) p), t * snd (plane_action s (code g) p))) /\
  (forall g p, el g -> radius_of (plane_action s (code g) p) = radius_of p).

Lemma rotate_radius t p : radius_of (rotate_pt t p) = radius_of p.
Proof.
  destruct p as [x y]. unfold radius_of, rotate_pt. cbn [fst snd]. f_equal.
  assert (H := sin2_cos2 t). unfold Rsqr in H.
  transitivity ((sin t * sin t + cos t * cos t) * (x * x + y * y)); [ring|rewrite H; ring].
Qed.
Lemma mirror_radius a p : radius_of (mirror_pt a p) = radius_of p.
Proof.
  destruct p as [x y]. unfold radius_of, mirror_pt. cbn [fst snd]. f_equal.
  assert (H := sin2_cos2 a). unfold Rsqr in H.
  assert (C : cos a * cos a = 1 - sin a * sin a) by lra.
  transitivity (x * x + y * y + 4 * (x * cos a + y * sin a) * (x * cos a + y * sin a) * (sin a * sin a + cos a * cos a - 1)); [ring|rewrite H; ring].
Qed.

Lemma planar_lin_iso {G} el s (code : G -> gelt) th fl axis P : planar el s code th fl axis P -> lin_iso s code el.
Proof.
  intros [A B _]. split.
  - intros g p t Hg. rewrite !A by auto. destruct p as [x y]. cbn [fst snd].
    destruct (Z.eqb (fl g) 1); unfold rotate_pt, mirror_pt; cbn [fst snd]; f_equal; ring.
  - intros g p Hg. rewrite A by auto. rewrite rotate_radius. destruct (Z.eqb (fl g) 1); [apply mirror_radius|auto].
Qed.

(** the constraint for everything the factory returns, with any radial profile in place of the Gaussian one *)
Definition planar_all {G} s (code : G -> gelt) el inv (rin rout : rep G) (sk : skbasis G) : Prop :=
  forall radial adim idx,
    planar_constraint s code el inv (rp_size rout) (rp_size rin) (rp_mat rout) (rp_mat rin)
      (polar_sample radial adim (sk_sample sk) idx).

Lemma sk_planar {G} s (code : G -> gelt) el inv mk (rin rout : rep G) sk :
  lin_iso s code el ->
  (forall i o, In i (rp_irreps rin) -> In o (rp_irreps rout) -> empty_or (mk i o) (all_constraints s code el inv o i)) ->
  rep_accepted rin -> rep_accepted rout -> sk_make mk rin rout = Ok sk -> planar_all s code el inv rin rout sk.
Proof.
  intros [L1 L2] H Ai Ao Hs radial adim idx.
  apply (polar_constraint s code el inv mk rin rout); auto.
  intros i o b Hi Ho E. specialize (H i o Hi Ho). rewrite E in H. exact H.
Qed.

Lemma r2_make_inv {G} mk (rin rout : rep G) radii sigma b : r2_make mk rin rout radii sigma = Ok b ->
  sk_make mk rin rout = Ok (r2_angular b) /\ gauss_make radii sigma = Ok (r2_radial b).
Proof.
  unfold r2_make. destruct (sk_make mk rin rout) as [a|]; [|discriminate]. cbn [rbind].
  destruct (gauss_make radii sigma) as [r|]; [|discriminate]. cbn [rbind]. intros H. injection H as <-. auto.
Qed.

Lemma sk_CN N F T rin rout sk : (0 < N)%Z -> cyc_rep N rin -> cyc_rep N rout -> bounds_ok F T = true ->
  sk_make (rotN_basis N F T) rin rout = Ok sk -> planar_all (SpRot (GC N)) EI (cyc_el N) (cyc_inverse N) rin rout sk.
Proof.
  intros HN [Ai Fi] [Ao Fo] HB. apply sk_planar; auto; [eapply planar_lin_iso; apply planar_rotN; auto|].
  intros i o Hi Ho. rewrite Forall_forall in Fi, Fo. destruct (Fi i Hi) as [n Hn]. destruct (Fo o Ho) as [m Hm].
  apply (C22_rotN N F T n m); auto.
Qed.
Lemma sk_DN N axis F T rin rout sk : (0 < N)%Z -> dih_rep N rin -> dih_rep N rout -> bounds_ok F T = true ->
  sk_make (fliprotN_basis N axis F T) rin rout = Ok sk ->
  planar_all (SpFlipRot (GD N) axis) codeD (dih_el N) (dih_inverse N) rin rout sk.
Proof.
  intros HN [Ai Fi] [Ao Fo] HB. apply sk_planar; auto; [eapply planar_lin_iso; apply planar_fliprotN; auto|].
  intros i o Hi Ho. rewrite Forall_forall in Fi, Fo. destruct (Fi i Hi) as [ji [n Hn]]. destruct (Fo o Ho) as [jo [m Hm]].
  apply (C22_fliprotN N axis F T ji n jo m); auto.
Qed.
Lemma sk_Flip axis F T rin rout sk : cyc_rep 2 rin -> cyc_rep 2 rout -> bounds_ok F T = true ->
  sk_make (flips_basis axis F T) rin rout = Ok sk ->
  planar_all (SpFlip (GC 2) axis) EI (cyc_el 2) (cyc_inverse 2) rin rout sk.
Proof.
  intros [Ai Fi] [Ao Fo] HB. apply sk_planar; auto; [eapply planar_lin_iso; apply planar_flip; auto|].
  intros i o Hi Ho. rewrite Forall_forall in Fi, Fo. destruct (Fi i Hi) as [n Hn]. destruct (Fo o Ho) as [m Hm].
  apply (C22_flip axis F T n m); auto.
Qed.
Lemma sk_SO2 B rin rout sk : so2_rep rin -> so2_rep rout ->
  sk_make rot_basis rin rout = Ok sk -> planar_all (SpRot (GSO2 B)) ER so2_el so2_inverse rin rout sk.
Proof.
  intros [Ai Fi] [Ao Fo]. apply sk_planar; auto; [eapply planar_lin_iso; apply planar_rot; auto|].
  intros i o Hi Ho. rewrite Forall_forall in Fi, Fo. destruct (Fi i Hi) as [n Hn]. destruct (Fo o Ho) as [m Hm].
  apply (C22_rot B n m); auto.
Qed.
Lemma sk_O2 B axis rin rout sk : o2_rep rin -> o2_rep rout ->
  sk_make (fliprot_basis axis) rin rout = Ok sk ->
  planar_all (SpFlipRot (GO2 B) axis) codeO o2_el o2_inverse rin rout sk.
Proof.
  intros [Ai Fi] [Ao Fo]. apply sk_planar; auto; [eapply planar_lin_iso; apply planar_fliprot; auto|].
  intros i o Hi Ho. rewrite Forall_forall in Fi, Fo. destruct (Fi i Hi) as [ji [n Hn]]. destruct (Fo o Ho) as [jo [m Hm]].
  apply (C22_fliprot B axis ji n jo m); auto.
Qed.
