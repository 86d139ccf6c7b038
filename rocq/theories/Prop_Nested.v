(** C57: SequentialModules inside SequentialModules; C33, C48 and C56 for such networks. *)
From Coq Require Import Reals ZArith String List Bool Lia Lra.
From Verif Require Import Base LinAlg Spec Spec_Fields Model_Groups Model_Rep Model_FieldType Proofs_FieldType Model_GSpace Spec_GSpace Model_Tensor Model_Utils Model_Modules Spec_Modules Proofs_Modules Prop_Modules
  Model_Conv Spec_Conv Proofs_Conv6 Proofs_Conv8 Model_Fieldwise Model_BatchNorm Model_Pool Prop_Pool2 Model_Upsample Model_NormMax Model_Expansion Model_Regular
  Model_Net Spec_Fieldwise2 Spec_Net Proofs_Net6 Prop_Net Model_Export Spec_Export Proofs_Export Prop_Export Model_Shape Spec_Shape Proofs_Shape Prop_Shape Proofs_Nested Model_Nested Spec_Nested.
Import ListNotations.
Open Scope R_scope.

(** Any modules that check their input first and return tensors of their output type (Spec_Nested.checks), nested in any way: the nested
    sequence can be constructed exactly if the flat one can, has the same types and computes the same on every input, exceptions included. *)
Theorem C57_nested : forall (T X : Type) (type_eqb : T -> T -> bool) (ty : X -> T) attr (t : tree (emodule T X)),
  (forall n, attr (py_str n) = false) -> filled t -> Forall (checks type_eqb ty) (leaves t) ->
  match build type_eqb ty attr t with
  | Ok m => exists s, seq_make type_eqb attr (leaves t) = Ok s /\ sq_in s = Some (em_in m) /\ sq_out s = Some (em_out m) /\
                      forall x, em_fwd m x = seq_forward type_eqb ty s x
  | Err er => seq_make type_eqb attr (leaves t) = Err er
  end.
Proof. intros T X type_eqb ty attr t AT FI C. exact (nested_flat type_eqb ty attr AT t FI C). Qed.
Print Assumptions C57_nested.
(** Every module of the library, with any parameters, is such a module. *)
Theorem C57_modules : forall G B (bt : batch B) argmax junk junkn cob_id (l : xlayer G),
  checks (ft_eqb space_eqb rep_eqb) snd (xlayer_module argmax junk junkn cob_id bt l).
Proof. intros. apply modl_checks. Qed.
Print Assumptions C57_modules.
(** Two ways of nesting the same modules: both raise, or both give networks that compute the same. *)
Theorem C57_networks : forall G B (bt : batch B) argmax junk junkn cob_id attr (t1 t2 : tree (xlayer G)),
  (forall n, attr (py_str n) = false) -> filled t1 -> filled t2 -> leaves t1 = leaves t2 ->
  match build (ft_eqb space_eqb rep_eqb) snd attr (tmap (xlayer_module argmax junk junkn cob_id bt) t1),
        build (ft_eqb space_eqb rep_eqb) snd attr (tmap (xlayer_module argmax junk junkn cob_id bt) t2) with
  | Ok m1, Ok m2 => em_in m1 = em_in m2 /\ em_out m1 = em_out m2 /\ forall x, em_fwd m1 x = em_fwd m2 x
  | Err e1, Err e2 => e1 = e2
  | _, _ => False
  end.
Proof.
  intros G B bt argmax junk junkn cob_id attr t1 t2 AT F1 F2 E.
  pose proof (nested_flat (ft_eqb space_eqb rep_eqb) snd attr AT _ (filled_tmap (xlayer_module argmax junk junkn cob_id bt) _ F1) (modls_check argmax junk junkn cob_id bt t1)) as N1.
  pose proof (nested_flat (ft_eqb space_eqb rep_eqb) snd attr AT _ (filled_tmap (xlayer_module argmax junk junkn cob_id bt) _ F2) (modls_check argmax junk junkn cob_id bt t2)) as N2.
  rewrite leaves_tmap in N1, N2. rewrite <- E in N2. unfold ctype in *.
  destruct (build _ _ _ (tmap _ t1)) as [m1|e1], (build _ _ _ (tmap _ t2)) as [m2|e2].
  - destruct N1 as (s & S1 & S2 & S3 & S4), N2 as (s2 & R1 & R2 & R3 & R4). rewrite S1 in R1. injection R1 as <-. split; [congruence|]. split; [congruence|]. intros x. rewrite S4, R4. reflexivity.
  - destruct N1 as (s & S1 & _). congruence.
  - destruct N2 as (s & S1 & _). congruence.
  - congruence.
Qed.
Print Assumptions C57_networks.
(** C48 for nested networks: export keeps the nesting, and the two networks agree. Partial: as C48_network_partial, but nested. *)
Theorem C48_nested_partial : forall G B (bt : batch B) argmax junk junkn cob_id attr version (t : tree (xlayer G)) t' m,
  numbered bt -> (forall n, attr (py_str n) = false) -> filled t ->
  Forall exportable (leaves t) -> texport (xlayer_export version) t = Ok t' ->
  build (ft_eqb space_eqb rep_eqb) snd attr (tmap (fun p => xlayer_module argmax junk junkn cob_id bt (snd p)) t') = Ok m ->
  forall u (x : arr (B -> vec)), ft_eqb space_eqb rep_eqb u (em_in m) = true ->
    same_outcome (em_fwd m (x, u)) (ttree_forward bt (tmap fst t') (ct_size u, x)).
Proof.
  intros G B bt argmax junk junkn cob_id attr version t t' m NB AT FI EX TE BM u x TU. destruct (texport_leaves _ _ _ TE) as [RM FI']. specialize (FI' FI).
  assert (CK : Forall (checks (ft_eqb space_eqb rep_eqb) snd) (leaves (tmap (fun p : tlayer * xlayer G => xlayer_module argmax junk junkn cob_id bt (snd p)) t'))).
  { rewrite leaves_tmap. apply Forall_map. apply Forall_forall. intros p _. apply modl_checks. }
  pose proof (nested_flat (ft_eqb space_eqb rep_eqb) snd attr AT _ (filled_tmap _ _ FI') CK) as N. unfold ctype in *. rewrite BM in N. destruct N as (s & S1 & S2 & S3 & S4). rewrite leaves_tmap in S1. rewrite S4, ttree_leaves, leaves_tmap.
  assert (NE : net_export version (leaves t) = Ok (map fst (leaves t'), map snd (leaves t'))) by (unfold net_export; rewrite RM; reflexivity).
  rewrite <- (map_map snd (xlayer_module argmax junk junkn cob_id bt)) in S1.
  destruct (C48_network_partial G B bt argmax junk junkn cob_id attr version _ _ _ s NB AT EX NE S1) as [_ Q]. exact (Q _ u x S2 TU).
Qed.
Print Assumptions C48_nested_partial.

(** C33 for nested networks *)
Theorem C33_nested_shape_partial : forall G B (bt : batch B) argmax junk junkn cob_id attr (t : tree (xlayer G)) m batch x y,
  (forall n, attr (py_str n) = false) -> filled t -> Forall announces (leaves t) ->
  build (ft_eqb space_eqb rep_eqb) snd attr (tmap (xlayer_module argmax junk junkn cob_id bt) t) = Ok m ->
  em_fwd m x = Ok y -> tree_shape t (shape_of batch x) = Ok (shape_of batch y).
Proof.
  intros G B bt argmax junk junkn cob_id attr t m batch x y AT FI A BM F. apply (tree_tells argmax junk junkn cob_id bt batch t FI A).
  destruct (build_stands (ft_eqb space_eqb rep_eqb) snd attr AT _ (filled_tmap _ _ FI) (modls_check argmax junk junkn cob_id bt t) m BM) as (_ & _ & _ & E). rewrite leaves_tmap in E. exact (eq_trans (eq_sym (E x)) F).
Qed.
Print Assumptions C33_nested_shape_partial.

(** C56 for nested networks *)
Theorem C56_nested : forall G (sp : space G) isrep B (bt : batch B) e g argmax cob_id fits attr (t : tree (layer G)) (interp : forall A : Type, R -> R -> arr A -> arr A) junk junkn m tin (x y : arr (B -> vec)) (tout : ctype G),
  planar_space G sp isrep -> fg_is_element (sp_group (sp_obj sp)) e = true -> sp_prj sp e = Some g -> grid_exact (sp_obj sp) e ->
  argmax_ok argmax -> numbered bt -> (forall n, attr (py_str n) = false) -> filled t ->
  Forall (good_layer sp isrep e g cob_id fits) (leaves t) -> ok_type sp isrep g tin ->
  build (ft_eqb space_eqb rep_eqb) snd attr (tmap (layer_module argmax junk junkn cob_id bt) t) = Ok m ->
  em_fwd m (x, tin) = Ok (y, tout) ->
  suits_all argmax cob_id bt junk junkn (leaves t) (x, tin) ->
  forall junk' junkn', exists m' x' y' y'',
    build (ft_eqb space_eqb rep_eqb) snd attr (tmap (layer_module argmax junk' junkn' cob_id bt) t) = Ok m' /\
    field_transform interp tin x e = Ok x' /\
    em_fwd m' (x', tin) = Ok (y', tout) /\
    field_transform interp tout y e = Ok y'' /\ same_field (ct_size tout) y' y''.
Proof.
  intros G sp isrep B bt e g argmax cob_id fits attr t interp junk junkn m tin x y tout PS He Hg GE AM NB AT FI GL OT BM F SU junk' junkn'.
  assert (CK : forall junk junkn, Forall (checks (ft_eqb space_eqb rep_eqb) snd) (leaves (tmap (layer_module argmax junk junkn cob_id bt) t))).
  { intros j jn. rewrite leaves_tmap. apply Forall_map. apply Forall_forall. intros l _. exact (modl_checks argmax j jn cob_id bt (MOther l)). }
  pose proof (nested_flat (ft_eqb space_eqb rep_eqb) snd attr AT _ (filled_tmap _ _ FI) (CK junk junkn)) as N.
  pose proof (nested_flat (ft_eqb space_eqb rep_eqb) snd attr AT _ (filled_tmap _ _ FI) (CK junk' junkn')) as N'. unfold ctype in *.
  rewrite BM in N. destruct N as (s & S1 & _ & _ & S4). rewrite leaves_tmap in S1. rewrite S4 in F.
  destruct (C56_network G sp isrep B bt e g argmax cob_id fits attr (leaves t) interp junk junkn s tin x y tout PS He Hg GE AM NB AT GL OT S1 F SU junk' junkn') as (s' & x' & y' & y'' & E1 & E2 & E3 & E4 & E5).
  rewrite leaves_tmap in N'. unfold ctype in *. 
  match type of N' with match ?r with _ => _ end => destruct r as [m'|er] eqn:BM' end; [|congruence]. destruct N' as (s2 & R1 & _ & _ & R4).
  rewrite E1 in R1. injection R1 as <-. exists m', x', y', y''. split; [reflexivity|]. split; [exact E2|]. split; [rewrite R4; exact E3|]. auto.
Qed.
Print Assumptions C56_nested.

(** not vacuous: the network of C48_network_ex in two nestings *)
Example C57_ex : exists (ls : list (xlayer Z)) m1 m2 y,
  let bt := MkBatch 1 (fun _ : unit => 0%nat) (fun _ => tt) in
  let md := xlayer_module (fun _ => 0%nat) (fun _ _ => 0) (fun _ _ => 0) (fun _ => false) bt in
  let x := MkArr 3 4 (fun i j (_ : unit) c => INR (i + j + c)) in
  match ls with
  | [a; b; c] => build (ft_eqb space_eqb rep_eqb) snd (fun _ => false) (tmap md (Node [Node [Leaf a; Leaf b]; Leaf c])) = Ok m1 /\
                 build (ft_eqb space_eqb rep_eqb) snd (fun _ => false) (tmap md (Node [Leaf a; Node [Leaf b; Node [Leaf c]]])) = Ok m2 /\
                 em_fwd m1 (x, c4_type) = Ok y /\ em_fwd m2 (x, c4_type) = Ok y /\ a_h (fst y) = 6%nat
  | _ => False
  end.
Proof.
  destruct C48_network_ex as (m & w & b & a & nets & ls' & s & y & n & z & NB & FE & NE & MK & SI & SF & TF & HZ).
  assert (exists a1 a2 a3, ls' = [a1; a2; a3]) as (a1 & a2 & a3 & ->).
  { unfold net_export in NE. apply rbind_ok in NE as (l & RM & NE). injection NE as _ <-. cbn [rmap] in RM. apply rbind_ok in RM as (p1 & _ & RM). apply rbind_ok in RM as (p2 & RM & R0). injection R0 as <-. apply rbind_ok in RM as (p3 & _ & RM).
    apply rbind_ok in RM as (p4 & RM & R0). injection R0 as <-. apply rbind_ok in RM as (p5 & _ & RM). apply rbind_ok in RM as (p6 & RM & R0). injection R0 as <-. injection RM as <-. cbn. eauto. }
  set (bt := MkBatch 1 (fun _ : unit => 0%nat) (fun _ => tt)) in *. set (x := MkArr 3 4 _) in *.
  set (md := xlayer_module (G := Z) (fun _ => 0%nat) (fun _ _ => 0) (fun _ _ => 0) (fun _ => false) bt) in *.
  assert (AT : forall n : nat, (fun _ : string => false) (py_str n) = false) by reflexivity.
  assert (HY : a_h y = 6%nat).
  { destruct (C48_network_partial _ _ bt _ _ _ _ _ (1, 7)%Z _ _ _ s NB AT FE NE MK) as [_ T]. specialize (T c4_type c4_type x SI (type_refl_CN _ _)).
    assert (T2 : same_outcome (Ok (y, c4_type)) (Ok (n, z))) by (exact (eq_ind _ (fun r => same_outcome (Ok (y, c4_type)) r) (eq_ind _ (fun r => same_outcome r _) T _ SF) _ TF)).
    destruct T2 as (_ & T2). destruct T2 as (T2 & _). congruence. }
  assert (Q : forall t, filled t -> leaves t = [a1; a2; a3] -> exists m, build (ft_eqb space_eqb rep_eqb) snd (fun _ => false) (tmap md t) = Ok m /\ em_fwd m (x, c4_type) = Ok (y, c4_type)).
  { intros t FI E. pose proof (nested_flat (ft_eqb space_eqb rep_eqb) snd (fun _ => false) AT _ (filled_tmap md _ FI) (modls_check _ _ _ _ bt t)) as N. rewrite leaves_tmap, E in N. unfold ctype in *.
    destruct (build _ _ _ (tmap md t)) as [mm|er]; [|rewrite MK in N; discriminate]. destruct N as (s' & S1 & _ & _ & S4). rewrite MK in S1. injection S1 as <-. exists mm. split; [reflexivity|]. rewrite S4. exact SF. }
  destruct (Q (Node [Node [Leaf a1; Leaf a2]; Leaf a3])) as (m1 & A1 & A2); [repeat constructor|reflexivity|].
  destruct (Q (Node [Leaf a1; Node [Leaf a2; Node [Leaf a3]]])) as (m2 & B1 & B2); [repeat constructor|reflexivity|].
  exists [a1; a2; a3], m1, m2, (y, c4_type). cbv zeta. split; [exact A1|]. split; [exact B1|]. split; [exact A2|]. split; [exact B2|exact HY].
Qed.
