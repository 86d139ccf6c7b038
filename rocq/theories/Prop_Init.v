(** C47: generalised He initialisation. *)
From Coq Require Import Reals ZArith String List Bool Lia Lra.
From Verif Require Import Base Spec Model_Groups Model_Rep Model_FieldType Model_Utils Model_Expansion Spec_Expansion Model_Conv Model_Init Spec_Conv Proofs_Conv8 Proofs_Init Proofs_Restrict Prop_Conv.
Import ListNotations.
Open Scope R_scope.

(** sum of the squares of the standard deviations of the weights described by an entry with property c *)
Definition squares {A} (infos : list A) (stds : list R) (c : A -> bool) : R :=
  rsum (length infos) (fun x => match nth_error infos x with Some a => if c a then nth x stds 0 ^ 2 else 0 | None => 0 end).

(** For every expansion whose information methods list all its weights (C28): the weights are independent normal numbers
    times positive standard deviations.  For every output irrep that is reached at all, the squares of the standard
    deviations of the weights into it sum to one; each kind of input irrep contributes the same share, and the weights from
    the same kind of input irrep have the same standard deviation. *)
Theorem C47_he_init : forall (Rp At Id N : Type) (rname : Rp -> string) (rsize rirr : Rp -> nat) (at_id : At -> Id) (at_in at_out : At -> nat) (id_eqb : Id -> Id -> bool)
    (neqb : N -> N -> bool) (in_irrep : @einfo At Id -> N) normal (b : @bexp Rp At Id),
  (forall a c, reflect (a = c) (neqb a c)) ->
  let infos := be_basis_info rname rsize rirr at_id at_in at_out b in
  length infos = be_dimension id_eqb b ->
  exists stds, he_init rname rsize rirr at_id at_in at_out id_eqb neqb in_irrep (be_dimension id_eqb b) normal b = Ok (map (fun x => nth x stds 0 * normal x) (seq 0 (be_dimension id_eqb b))) /\
    length stds = be_dimension id_eqb b /\ (forall s, In s stds -> 0 < s) /\
    (forall o, In o (map ei_outpos infos) -> squares infos stds (fun a => (ei_outpos a =? o)%nat) = 1) /\
    (forall o, exists kinds, NoDup kinds /\ (forall n, In n kinds <-> exists a, In a infos /\ ei_outpos a = o /\ in_irrep a = n) /\
       forall n, In n kinds -> squares infos stds (fun a => ((ei_outpos a =? o)%nat && neqb n (in_irrep a))%bool) = 1 / INR (length kinds)) /\
    (forall x y a c, nth_error infos x = Some a -> nth_error infos y = Some c -> ei_outpos a = ei_outpos c -> in_irrep a = in_irrep c -> nth x stds 0 = nth y stds 0).
Proof.
  intros Rp At Id N rname rsize rirr at_id at_in at_out id_eqb neqb in_irrep normal b NE infos L.
  set (en := fun a : @einfo At Id => (in_irrep a, ei_outpos a)). set (l := map en infos).
  assert (LL : length l = be_dimension id_eqb b) by (unfold l; rewrite map_length; exact L).
  exists (map (he_value neqb l) l). set (stds := map (he_value neqb l) l).
  assert (LS : length stds = be_dimension id_eqb b) by (unfold stds; rewrite map_length; exact LL).
  assert (SQ : forall (c : @einfo At Id -> bool) (c' : N * nat -> bool), (forall a, In a infos -> c a = c' (en a)) ->
    squares infos stds c = lsum (fun a => if c' a then he_value neqb l a * he_value neqb l a else 0) l).
  { intros c c' HC. unfold squares. assert (HD : infos = [] \/ exists a : @einfo At Id, True) by (destruct infos as [|a q]; [left; reflexivity|right; exists a; exact I]).
    destruct HD as [E0|[a0 _]]. { unfold stds, l. rewrite E0. reflexivity. } rewrite (lsum_nth _ (en a0)). assert (LE : length l = length infos) by (unfold l; apply map_length). rewrite LE. apply rsum_ext. intros x Hx.
    assert (Hn : nth_error infos x = Some (nth x infos a0)) by (apply nth_error_nth'; auto). rewrite Hn.
    assert (EN : nth x l (en a0) = en (nth x infos a0)) by (unfold l; apply map_nth). rewrite EN. rewrite HC by (apply nth_In; auto).
    destruct (c' (en (nth x infos a0))); [|reflexivity]. unfold stds. rewrite (nth_indep _ 0 (he_value neqb l (en a0))) by (fold stds; lia).
    rewrite (map_nth (he_value neqb l)), EN. ring. }
  split.
  { unfold he_init. rewrite Nat.eqb_refl. cbn [assert_]. fold infos. fold en. fold l. rewrite <- LL at 1. rewrite (he_stds_ok neqb NE). cbn [rbind]. f_equal. fold stds. rewrite LS.
    assert (Q : forall (s : list R) p, map (fun q => fst q * normal (snd q)) (combine s (seq p (length s))) = map (fun x => nth (x - p) s 0 * normal x) (seq p (length s))).
    { clear. intros s. induction s as [|v s IH]; intros p; [reflexivity|]. cbn [length seq combine map]. cbn [fst snd]. rewrite Nat.sub_diag. cbn [nth]. f_equal. rewrite IH. apply map_ext_in. intros x Hx. apply in_seq in Hx.
      replace (x - p)%nat with (S (x - S p)) by lia. reflexivity. }
    rewrite <- LS. rewrite Q. apply map_ext. intros x. rewrite Nat.sub_0_r. reflexivity. }
  split; [exact LS|]. split. { intros s Hs. apply in_map_iff in Hs as (a & <- & Ha). apply (he_value_sq neqb NE l a Ha). }
  split.
  { intros o Ho. apply in_map_iff in Ho as (a & <- & Ha). rewrite (SQ _ (fun k => (snd k =? ei_outpos a)%nat)) by auto. apply (he_total neqb NE). exists (in_irrep a). apply in_map_iff. exists a. auto. }
  split.
  { intros o. exists (names_at neqb l o). destruct (names_at_spec neqb NE l o) as [ND IN]. split; [exact ND|].
    assert (IN' : forall n, In n (names_at neqb l o) <-> exists a, In a infos /\ ei_outpos a = o /\ in_irrep a = n).
    { intros n. rewrite IN. unfold l. rewrite in_map_iff. unfold en. split; [intros (a & E & Ha); injection E as <- <-; eauto|]. intros (a & Ha & <- & <-). eauto. }
    split; [exact IN'|]. intros n Hn. rewrite (SQ _ (key_is neqb n o)). 2:{ intros a Ha. unfold key_is, en. cbn [fst snd]. rewrite Nat.eqb_sym. apply andb_comm. }
    apply (he_share neqb NE). apply IN. auto. }
  intros x y a c Hx Hy E1 E2.
  assert (NX : forall z e, nth_error infos z = Some e -> nth z stds 0 = he_value neqb l (en e)).
  { intros z e Hz. apply nth_error_nth. unfold stds, l at 2. rewrite map_map. apply (map_nth_error (fun q => he_value neqb l (en q))). exact Hz. }
  rewrite (NX x a Hx), (NX y c Hy). unfold en. rewrite E1, E2. reflexivity.
Qed.
Print Assumptions C47_he_init.

(** the input irrep of an element of the expansion of R2Conv, identified within the group by its flip and rotation frequency
    (from which its name is formatted) *)
Definition conv_in_irrep {G} (ins : list (rep G)) (inf : @einfo kattr kid) : Z * Z :=
  match nth_error ins (ei_i inf) with
  | Some r => match nth_error (rp_irreps r) (ka_in (ei_attr inf)) with Some ir => (ir_flip ir, ir_freq ir) | None => (-1, -1)%Z end
  | None => (-1, -1)%Z end.
Definition zz_eqb (a b : Z * Z) : bool := ((fst a =? fst b) && (snd a =? snd b))%Z%bool.
Lemma zz_eqbP a b : reflect (a = b) (zz_eqb a b).
Proof. destruct a as [a1 a2], b as [b1 b2]. unfold zz_eqb. cbn [fst snd]. destruct (Z.eqb_spec a1 b1); [|right; congruence]. destruct (Z.eqb_spec a2 b2); [left|right]; congruence. Qed.
(** r2convolution.py:279: the initialisation of every R2Conv *)
Theorem C47_R2Conv : forall G (sp : space G) isrep tin tout k padding stride dil mode groups bias sigma fco rings mo bf m normal,
  conv_args sp isrep tin tout dil rings -> (0 < groups)%nat ->
  r2conv_make tin tout k padding stride dil mode groups bias sigma fco rings mo bf = Ok m ->
  let dim := be_dimension kid_eqb (cv_exp m) in
  let infos := be_basis_info rp_name rp_size (fun r => length (rp_irreps r)) ka_id ka_in ka_out (cv_exp m) in
  exists stds, he_init rp_name rp_size (fun r => length (rp_irreps r)) ka_id ka_in ka_out kid_eqb zz_eqb (conv_in_irrep (one_group tin groups)) dim normal (cv_exp m) =
      Ok (map (fun x => nth x stds 0 * normal x) (seq 0 dim)) /\
    length stds = dim /\ (0 < dim)%nat /\ (forall s, In s stds -> 0 < s) /\
    (forall o, In o (map ei_outpos infos) -> squares infos stds (fun a => (ei_outpos a =? o)%nat) = 1).
Proof.
  intros G sp isrep tin tout k padding stride dil mode groups bias sigma fco rings mo bf m normal CA Hg H dim infos.
  destruct (C28_R2Conv _ _ _ _ _ _ _ _ _ _ _ _ _ _ _ _ _ _ CA Hg H) as (params & _ & D & first & _ & _ & L & _).
  destruct (C47_he_init (rep G) kattr kid (Z * Z) rp_name rp_size (fun r => length (rp_irreps r)) ka_id ka_in ka_out kid_eqb zz_eqb (conv_in_irrep (one_group tin groups)) normal (cv_exp m) zz_eqbP L) as (stds & S1 & S2 & S3 & S4 & _).
  exists stds. auto.
Qed.
Print Assumptions C47_R2Conv.
(** the hypotheses are those of C28, see C28_ex; there is at least one output irrep *)
Example C47_ex : exists m o, r2conv_make c4_type c4_type 3 (PadInt 1) 1 1 "zeros" 1 true (SigList [1 / 2; 1 / 2]) (FcoFun (fun _ => 2)) (Some [0; 1]) None None = Ok m /\
  conv_args (space_CN 4) (cyc_rep 4) c4_type c4_type 1 (Some [0; 1]) /\
  In o (map ei_outpos (be_basis_info rp_name rp_size (fun r => length (rp_irreps r)) ka_id ka_in ka_out (cv_exp m))).
Proof.
  destruct C28_ex as (m & CA & M). exists m. destruct (C28_R2Conv _ _ _ _ _ _ _ _ _ _ _ _ _ _ _ _ _ _ CA (Nat.lt_0_succ 0) M) as (params & _ & D & first & _ & _ & L & _).
  destruct (be_basis_info rp_name rp_size (fun r => length (rp_irreps r)) ka_id ka_in ka_out (cv_exp m)) as [|a l]; [cbn in L; lia|]. exists (ei_outpos a). split; [exact M|]. split; [exact CA|]. left. reflexivity.
Qed.
