(** C39, C40 and parts of C33 and C50: containers and modules that move fields. *)
From Coq Require Import ZArith String List Bool Lia Permutation Sorted.
From Verif Require Import Base Spec_Fields Model_Groups Model_Rep Model_FieldType Model_Utils Model_Modules Spec_Modules
  Proofs_FieldType Proofs_FieldType2 Proofs_Utils Prop_Field Proofs_Modules Proofs_Modules2 Proofs_Modules3.
Import ListNotations.
Open Scope nat_scope.

(** ** C39 *)
(** Positional arguments: accepted iff consecutive types match, refused with AssertionError otherwise.
    [attr]: the attributes of the object, none of which is called "0", "1", ... *)
Theorem C39_construction : forall (T X : Type) (type_eqb : T -> T -> bool) (attr : string -> bool) (l : list (emodule T X)),
  (forall n, attr (py_str n) = false) ->
  (chained (fun a b => type_eqb (em_in b) (em_out a) = true) l ->
     exists s, seq_make type_eqb attr l = Ok s /\ is_chain type_eqb l s) /\
  (~ chained (fun a b => type_eqb (em_in b) (em_out a) = true) l -> seq_make type_eqb attr l = Err "AssertionError").
Proof.
  intros T X type_eqb attr l A. unfold seq_make. rewrite seq_empty_canon.
  set (q := map (fun p => (py_str (fst p), snd p)) (enumerate l)).
  assert (E : map snd q = l) by (unfold q; rewrite map_map; cbn; apply enumerate_snd).
  destruct (seq_build_canon type_eqb attr q []) as [H1 H2].
  - apply Forall_map, Forall_forall. intros p _. apply py_str_legal, A.
  - unfold q. cbn [app]. rewrite map_map. cbn [fst].
    assert (ND : NoDup (map fst (enumerate l))) by (rewrite enumerate_fst; apply seq_NoDup).
    rewrite <- (map_map fst py_str). clear - ND. induction (map fst (enumerate l)) as [|a m IH]; cbn; constructor; inversion ND; subst; auto.
    intros H. apply in_map_iff in H as (b & Eb & Hb). apply py_str_inj in Eb. subst; auto.
  - apply chained_nil.
  - cbn [app] in *. rewrite E in *. split; [|exact H2]. intros C. exists (canon q). split; [auto|].
    rewrite <- E. apply is_chain_canon. rewrite E. exact C.
Qed.
Print Assumptions C39_construction.
(** The same for an OrderedDict (distinct keys) of legal names. *)
Theorem C39_construction_dict : forall (T X : Type) (type_eqb : T -> T -> bool) (attr : string -> bool) (l : list (string * emodule T X)),
  Forall (fun p => legal attr (fst p)) l -> NoDup (map fst l) ->
  (chained (fun a b => type_eqb (em_in b) (em_out a) = true) (map snd l) ->
     exists s, seq_make_dict type_eqb attr l = Ok s /\ is_chain type_eqb (map snd l) s) /\
  (~ chained (fun a b => type_eqb (em_in b) (em_out a) = true) (map snd l) -> seq_make_dict type_eqb attr l = Err "AssertionError").
Proof.
  intros T X type_eqb attr l L N. unfold seq_make_dict. rewrite seq_empty_canon.
  destruct (seq_build_canon type_eqb attr l []) as [H1 H2]; auto. { apply chained_nil. }
  split; [|exact H2]. intros C. exists (canon l). split; [auto|]. apply is_chain_canon. exact C.
Qed.
Print Assumptions C39_construction_dict.

(** After any history of add_module calls (the failing ones caught) with legal, pairwise distinct names, the object is a
    chain.  Missing from the full claim: repeated and illegal names, for which it is false (below). *)
Theorem C39_history_partial : forall (T X : Type) (type_eqb : T -> T -> bool) (attr : string -> bool) (calls : list (string * emodule T X)),
  Forall (fun p => legal attr (fst p)) calls -> NoDup (map fst calls) ->
  exists l, is_chain type_eqb l (seq_history type_eqb attr seq_empty calls).
Proof.
  intros T X type_eqb attr calls L N. rewrite seq_empty_canon.
  destruct (history_canon type_eqb attr calls []) as (mods & -> & C); auto. { apply chained_nil. }
  exists (map snd mods). apply is_chain_canon. exact C.
Qed.
Print Assumptions C39_history_partial.
(** A call with a new legal name: appended at the end when the types match, refused without any effect otherwise. *)
Theorem C39_add_module : forall (T X : Type) (type_eqb : T -> T -> bool) (attr : string -> bool) (l : list (emodule T X)) s name m,
  is_chain type_eqb l s -> legal attr name -> ~ In name (map fst (sq_mods s)) ->
  (chained (fun a b => type_eqb (em_in b) (em_out a) = true) (l ++ [m]) ->
     snd (seq_add type_eqb attr s name m) = Ok tt /\ is_chain type_eqb (l ++ [m]) (fst (seq_add type_eqb attr s name m))) /\
  (~ chained (fun a b => type_eqb (em_in b) (em_out a) = true) (l ++ [m]) -> seq_add type_eqb attr s name m = (s, Err "AssertionError")).
Proof.
  intros T X type_eqb attr l s name m (E & I & O & C) L F.
  assert (Es : s = canon (sq_mods s)). { destruct s as [i o ms]. cbn in *. unfold canon. rewrite E, I, O. reflexivity. }
  assert (EA : seq_add type_eqb attr s name m =
     if match rev l with [] => true | a :: _ => type_eqb (em_in m) (em_out a) end
     then (canon (sq_mods s ++ [(name, m)]), Ok tt) else (s, Err "AssertionError")).
  { rewrite Es at 1. rewrite seq_add_canon by auto. rewrite E, <- Es. reflexivity. }
  rewrite EA, chained_snoc. split.
  - intros [_ H].
    assert (Q : match rev l with [] => true | a :: _ => type_eqb (em_in m) (em_out a) end = true) by (destruct (rev l); auto).
    rewrite Q. split; [reflexivity|].
    cbn [fst]. replace (l ++ [m]) with (map snd (sq_mods s ++ [(name, m)])) by (rewrite map_app, E; reflexivity).
    apply is_chain_canon. rewrite map_app, E. apply chained_snoc. auto.
  - intros H. destruct (rev l) as [|a r]; [elim H; auto|]. destruct (type_eqb (em_in m) (em_out a)); [elim H; auto|]. reflexivity.
Qed.
Print Assumptions C39_add_module.

(** forward of a chain: the composition of its modules, from in_type to out_type; every other input is refused. *)
Theorem C39_forward : forall (T X : Type) (type_eqb : T -> T -> bool) (ty : X -> T) (l : list (emodule T X)) s,
  (forall t u v, type_eqb t u = true -> type_eqb u v = true -> type_eqb t v = true) ->
  (forall t u, type_eqb t u = true -> type_eqb u t = true) ->
  is_chain type_eqb l s -> Forall (sound type_eqb ty) l ->
  forall m0 m1 l0 l1, l = m0 :: l0 -> l = l1 ++ [m1] ->
  (forall x, type_eqb (ty x) (em_in m0) = true ->
     exists y, seq_forward type_eqb ty s x = Ok y /\ composed l x y /\ type_eqb (ty y) (em_out m1) = true) /\
  (forall x, type_eqb (ty x) (em_in m0) = false -> seq_forward type_eqb ty s x = Err "AssertionError") /\
  sq_in s = Some (em_in m0) /\ sq_out s = Some (em_out m1).
Proof.
  intros T X type_eqb ty l s TR SY (E & I & O & C) S m0 m1 l0 l1 E0 E1.
  assert (ER : rev l = m1 :: rev l1) by (rewrite E1, rev_app_distr; reflexivity).
  rewrite E0 in I at 1. cbn in I. rewrite ER in O.
  split; [|split; [|auto]].
  - intros x Hx. destruct (run_all_typed type_eqb ty SY TR l (em_in m0) x) as (y & R & Ty); auto.
    { rewrite E0. apply (TR _ (ty x)); auto. }
    rewrite ER in Ty. exists y. unfold seq_forward. rewrite I, O, E. cbn [opt_eqb]. rewrite Hx. cbn [assert_]. rewrite R. cbn [rbind].
    rewrite Ty. cbn [assert_]. split; [reflexivity|]. split; [apply run_all_composed; auto|auto].
  - intros x Hx. unfold seq_forward. rewrite I. cbn [opt_eqb]. rewrite Hx. reflexivity.
Qed.
Print Assumptions C39_forward.

(** Equivariance composes. *)
Theorem C39_equivariant : forall (T X G : Type) (type_eqb : T -> T -> bool) (ty : X -> T) (act : G -> X -> X) (same : X -> X -> Prop)
   (l : list (emodule T X)) s,
  (forall t u v, type_eqb t u = true -> type_eqb u v = true -> type_eqb t v = true) ->
  (forall t u, type_eqb t u = true -> type_eqb u t = true) ->
  (forall g x, type_eqb (ty (act g x)) (ty x) = true) ->
  (forall x y, same x y -> type_eqb (ty x) (ty y) = true) ->
  (forall x, same x x) -> (forall x y, same x y -> same y x) -> (forall x y z, same x y -> same y z -> same x z) ->
  is_chain type_eqb l s -> l <> [] -> Forall (sound type_eqb ty) l -> Forall (equivariant type_eqb ty act same) l ->
  forall g x y, seq_forward type_eqb ty s x = Ok y ->
  exists y', seq_forward type_eqb ty s (act g x) = Ok y' /\ same y' (act g y).
Proof.
  intros T X G type_eqb ty act same l s TR SY AT ST SR SS STR (E & I & O & C) NE S EQ g x y H.
  unfold seq_forward in *. apply assert_ok in H as [H1 H]. apply rbind_ok in H as (y0 & R & H). apply assert_ok in H as [H2 H]. injection H as ->.
  rewrite E in *. rewrite I in *. rewrite O in *.
  destruct l as [|m0 l0]; [congruence|]. cbn [opt_eqb] in H1.
  destruct (run_all_equiv type_eqb ty SY TR act same AT SR SS STR (m0 :: l0) g x y) as (y' & R' & Sy); auto.
  exists y'. cbn [opt_eqb]. rewrite (TR _ _ _ (AT g x) H1). cbn [assert_]. rewrite R'. cbn [rbind].
  destruct (rev (m0 :: l0)) as [|m1 r]; [discriminate|]. cbn [opt_eqb] in *.
  rewrite (TR _ _ _ (ST _ _ Sy) (TR _ _ _ (AT g y) H2)). cbn [assert_]. auto.
Qed.
Print Assumptions C39_equivariant.

(** Non-vacuity: two modules on integers tagged by a type (0 or 1); the group {+1, -1} acts by multiplication. *)
Definition ex_mod (a b : nat) (k : Z) : emodule nat (nat * Z) :=
  MkEM a b (fun x => if fst x =? a then Ok (b, k * snd x)%Z else Err "AssertionError").
Example C39_ex : exists s, seq_make Nat.eqb (fun _ => false) [ex_mod 0 1 2; ex_mod 1 0 3] = Ok s /\
  seq_forward Nat.eqb fst s (0, 7%Z) = Ok (0, 42%Z) /\ seq_forward Nat.eqb fst s (1, 7%Z) = Err "AssertionError".
Proof. eexists. split; [reflexivity|]. split; reflexivity. Qed.
Example C39_ex_refused : seq_make Nat.eqb (fun _ => false) [ex_mod 0 1 2; ex_mod 0 1 3] = Err "AssertionError".
Proof. reflexivity. Qed.
Example C39_ex_hyp : sound Nat.eqb fst (ex_mod 0 1 2) /\
  equivariant Nat.eqb fst (fun (b : bool) (x : nat * Z) => (fst x, if b then (- snd x)%Z else snd x)) eq (ex_mod 0 1 2).
Proof.
  split; [|split].
  - intros [a z] H. cbn in *. rewrite H. eexists. split; reflexivity.
  - intros g [a z] y H R. cbn in *. rewrite H in *. injection R as <-. eexists. split; [reflexivity|]. cbn. destruct g, z; reflexivity.
  - intros x x' y H -> R. eauto.
Qed.

(** Refuted outside these names.  (a) A repeated name: the new module replaces the old one in place, and the object is no
    chain; (b) an illegal name: the call raises but out_type has changed, so that a matching module is refused afterwards. *)
Theorem C39_repeated_name_refuted : exists (calls : list (string * emodule nat (nat * Z))) s,
  seq_build Nat.eqb (fun _ => false) seq_empty calls = Ok s /\
  Forall (sound Nat.eqb fst) (map snd calls) /\ chained (fun a b => Nat.eqb (em_in b) (em_out a) = true) (map snd calls) /\
  (forall l, ~ is_chain Nat.eqb l s) /\
  forall x, seq_forward Nat.eqb fst s x = Err "AssertionError".
Proof.
  exists [("a", ex_mod 0 1 2); ("b", ex_mod 1 2 3); ("a", ex_mod 2 1 5)]%string. eexists. split; [reflexivity|].
  assert (SO : forall a b k, sound Nat.eqb fst (ex_mod a b k)).
  { intros a b k [c z] H. cbn in *. rewrite H. eexists. split; [reflexivity|]. cbn. apply Nat.eqb_refl. }
  split; [cbn [map snd]; repeat (constructor; [apply SO|]); constructor|].
  split. { cbn [map snd]. apply chained_cons. split; [reflexivity|]. apply chained_cons. split; [reflexivity|]. apply chained_cons. split; [exact I|apply chained_nil]. }
  split.
  - intros l (E & I & O & C). cbn in E. subst l. cbn in I. discriminate.
  - intros [a z]. unfold seq_forward. cbn. destruct (Nat.eqb_spec a 0) as [->|NE]; [|reflexivity]. cbn. reflexivity.
Qed.
Print Assumptions C39_repeated_name_refuted.
Theorem C39_illegal_name_refuted : exists (s : seqmod nat (nat * Z)) m,
  s = seq_history Nat.eqb (fun _ => false) seq_empty [("a", ex_mod 0 1 2); ("b.c", ex_mod 1 2 3)]%string /\
  map snd (sq_mods s) = [ex_mod 0 1 2] /\ Nat.eqb (em_in m) (em_out (ex_mod 0 1 2)) = true /\
  snd (seq_add Nat.eqb (fun _ => false) s "d" m) = Err "AssertionError" /\
  forall x, seq_forward Nat.eqb fst s x = Err "AssertionError".
Proof.
  eexists. exists (ex_mod 1 0 1). split; [reflexivity|]. split; [reflexivity|]. split; [reflexivity|]. split; [reflexivity|].
  intros [a z]. unfold seq_forward. cbn. destruct (a =? 0); reflexivity.
Qed.
Print Assumptions C39_illegal_name_refuted.

(** ** C40 *)
(** ReshuffleModule: y has the fields perm[0], perm[1], ... of x.  Every field of x occurs; if perm has as many entries as
    x has fields, each occurs once.  Construction succeeds iff the set of the entries is {0, ..., n-1}. *)
Theorem C40_reshuffle : forall (GS Rp A : Type) (sz : Rp -> nat) (fits : GS -> Rp -> bool) (gs_eqb : GS -> GS -> bool) (rp_eqb : Rp -> Rp -> bool)
   (t : ftype GS Rp) (perm : list nat),
  (forall g, gs_eqb g g = true) -> (forall r, rp_eqb r r = true) ->
  ft_reps t <> [] -> forallb (fits (ft_gs t)) (ft_reps t) = true ->
  ((forall i, In i perm <-> i < length (ft_reps t)) <-> exists m, reshuffle_make sz fits t (map Z.of_nat perm) = Ok m) /\
  forall m, reshuffle_make sz fits t (map Z.of_nat perm) = Ok m ->
  (length perm = length (ft_reps t) -> Permutation perm (seq 0 (length (ft_reps t)))) /\
  forall x : gtensor GS Rp A, gt_type x = t -> length (gt_data x) = ft_size sz t ->
  exists y, reshuffle_forward sz gs_eqb rp_eqb m x = Ok y /\ gt_type y = rs_out m /\ holds_fields sz x perm y.
Proof.
  intros GS Rp A sz fits gs_eqb rp_eqb t perm G1 G2 W1 W2. split.
  - split; [intros H; apply reshuffle_total; auto; split; auto|]. intros [m H]. apply reshuffle_spec in H as (_ & F & E & HF & _).
    apply map_of_nat_inj in E. subst. exact HF.
  - intros m H. split.
    + intros L. pose proof H as H'. apply reshuffle_spec in H' as (_ & F & E & HF & _). apply map_of_nat_inj in E. subst F.
      apply Permutation_sym, NoDup_Permutation_bis. apply seq_NoDup. rewrite seq_length; lia.
      intros i Hi. apply in_seq in Hi. apply HF. lia.
    + intros x ET L. eapply reshuffle_forward_spec; eauto.
Qed.
Print Assumptions C40_reshuffle.
Example C40_reshuffle_ex : exists m, reshuffle_make (fun n : nat => n) (fun _ _ => true) (MkFT tt [2; 1; 3]) [2; 0; 1]%Z = Ok m /\
  reshuffle_forward (fun n : nat => n) (fun _ _ => true) Nat.eqb m (MkGT [10; 11; 20; 30; 31; 32] (MkFT tt [2; 1; 3]))
  = Ok (MkGT [30; 31; 32; 10; 11; 20] (MkFT tt [3; 2; 1])).
Proof. eexists. split; reflexivity. Qed.
(** Refuted: a list that is no permutation is accepted when it only repeats entries, and the field is duplicated. *)
Theorem C40_reshuffle_duplicates_refuted : exists (t : ftype unit nat) (perm : list nat) m (x y : gtensor unit nat nat),
  reshuffle_make (fun n => n) (fun _ _ => true) t (map Z.of_nat perm) = Ok m /\
  ~ Permutation perm (seq 0 (length (ft_reps t))) /\
  reshuffle_forward (fun n => n) (fun _ _ => true) Nat.eqb m x = Ok y /\ length (gt_data x) = 2 /\ length (gt_data y) = 3.
Proof.
  exists (MkFT tt [1; 1]), [0; 0; 1]. do 3 eexists. split; [reflexivity|]. split.
  - intros P. apply Permutation_length in P. discriminate.
  - instantiate (1 := MkGT [7; 7; 8] (MkFT tt [1; 1; 1])). instantiate (1 := MkGT [7; 8] (MkFT tt [1; 1])). repeat split.
Qed.
Print Assumptions C40_reshuffle_duplicates_refuted.

(** BranchingModule: one entry per label, of the announced type, holding exactly the fields with this label, each once; in
    increasing position for levels 0 and 1, by size and then position for level 2. *)
Theorem C40_branching : forall (GS Rp A : Type) (sz : Rp -> nat) (fits : GS -> Rp -> bool) (gs_eqb : GS -> GS -> bool) (rp_eqb : Rp -> Rp -> bool)
   (t : ftype GS Rp) (labels : list string) (level : Z) m,
  (forall g, gs_eqb g g = true) -> (forall r, rp_eqb r r = true) ->
  ft_reps t <> [] -> forallb (fits (ft_gs t)) (ft_reps t) = true ->
  branching_make sz fits t labels level = Ok m ->
  forall x : gtensor GS Rp A, gt_type x = t -> length (gt_data x) = ft_size sz t ->
  exists ys, branching_forward sz gs_eqb rp_eqb m x = Ok ys /\ NoDup (map fst ys) /\ (forall l, In l (map fst ys) <-> In l labels) /\
    forall l y, In (l, y) ys -> kget String.eqb (br_out m) l = Some (gt_type y) /\
      exists F, holds_fields sz x F y /\ (forall i, In i F <-> nth_error labels i = Some l) /\ NoDup F /\
        (level <> 2%Z -> StronglySorted lt F) /\
        (level = 2%Z -> StronglySorted (fun a b => forall ra rb, nth_error (ft_reps t) a = Some ra -> nth_error (ft_reps t) b = Some rb ->
                                           sz ra < sz rb \/ (sz ra = sz rb /\ a < b)) F).
Proof.
  intros GS Rp A sz fits gs_eqb rp_eqb t labels level m G1 G2 W1 W2 H x ET L.
  destruct (branching_spec sz fits gs_eqb rp_eqb G1 G2 t labels level m x (conj W1 W2) H ET L) as (_ & ys & E & K & P).
  exists ys. split; [exact E|]. rewrite K. split; [apply dedup_nodup|]. split; [apply dedup_in|].
  intros l y Hy. destruct (P l y Hy) as (P1 & F & P2 & P3 & P4 & P5). split; [exact P1|]. exists F. split; [exact P2|]. split; [exact P3|]. split; [exact P4|].
  unfold level_order in P5. split; intros HL.
  - destruct (level =? 2)%Z eqn:E2; [apply Z.eqb_eq in E2; congruence|exact P5].
  - subst level. exact P5.
Qed.
Print Assumptions C40_branching.
(** Construction succeeds for every labeling without dots, and only for as many labels as fields and levels 0, 1, 2. *)
Theorem C40_branching_construction : forall (GS Rp : Type) (sz : Rp -> nat) (fits : GS -> Rp -> bool) (t : ftype GS Rp) (labels : list string) (level : Z),
  ft_reps t <> [] -> forallb (fits (ft_gs t)) (ft_reps t) = true -> (forall r, In r (ft_reps t) -> 0 < sz r) ->
  (length labels = length (ft_reps t) -> (0 <= level < 3)%Z -> Forall (fun l => has_dot l = false) labels ->
     exists m, branching_make sz fits t labels level = Ok m) /\
  (length labels <> length (ft_reps t) \/ ~ (0 <= level < 3)%Z -> branching_make sz fits t labels level = Err "AssertionError").
Proof.
  intros GS Rp sz fits t labels level W1 W2 HS. split.
  - intros HL Hl HD. apply branching_total; auto. split; auto.
  - intros H. unfold branching_make. destruct ((0 <=? level) && (level <? 3))%Z eqn:E; [|reflexivity]. cbn [assert_].
    destruct (Nat.eqb_spec (length (ft_reps t)) (length labels)); [|reflexivity]. apply andb_prop in E as [E1 E2]. destruct H; lia.
Qed.
Print Assumptions C40_branching_construction.
(** Labels are interleaved: neither group is contiguous without reshuffling. *)
Definition ex_types : ftype unit nat := MkFT tt [2; 1; 1; 1].
Definition ex_labels : list string := ["b"; "a"; "b"; "a"]%string.
Definition ex_tensor : gtensor unit nat nat := MkGT [10; 11; 20; 30; 40] ex_types.
Example C40_branching_ex : forall level, In level [0; 1; 2]%Z -> exists m ys,
  branching_make (fun n => n) (fun _ _ => true) ex_types ex_labels level = Ok m /\
  branching_forward (fun n => n) (fun _ _ => true) Nat.eqb m ex_tensor = Ok ys /\
  map (fun p => (fst p, gt_data (snd p))) ys = [("b", if (level =? 2)%Z then [30; 10; 11] else [10; 11; 30]); ("a", [20; 40])]%string.
Proof.
  intros level [<-|[<-|[<-|[]]]]; do 2 eexists; (split; [reflexivity|]; split; reflexivity).
Qed.
(** Refuted: labels with a dot (torch refuses the buffer name) and the documented level 3 raise. *)
Theorem C40_branching_dot_refuted : branching_make (fun n : nat => n) (fun _ _ => true) (MkFT tt [1]) ["a.b"%string] 0 = Err "KeyError" /\
  branching_make (fun n : nat => n) (fun _ _ => true) (MkFT tt [1]) ["a"%string] 3 = Err "AssertionError".
Proof. split; reflexivity. Qed.
Print Assumptions C40_branching_dot_refuted.

(** MergeModule: the outputs y_1, ..., y_k of the modules on the tensors of their labels, one after the other. *)
Theorem C40_merge : forall (GS Rp A : Type) (sz : Rp -> nat) (fits : GS -> Rp -> bool) (gs_eqb : GS -> GS -> bool)
   (modules : list (submodule A * label_arg)) (m : merge (GS := GS) (Rp := Rp) A) (d : list (string * gtensor GS Rp A)) (ys : list (gtensor GS Rp A)),
  fst (merge_make fits gs_eqb modules) = Ok m ->
  (* the modules succeed on the tensors of their labels, with tensors of their output types *)
  Forall2 (fun p y => exists args, Forall2 (fun l a => kget String.eqb d l = Some a) (label_list (snd p)) args /\
                        sm_fwd _ (fst p) args = Ok y /\ gt_type y = sm_out _ (fst p) /\ length (gt_data y) = ft_size sz (gt_type y)) modules ys ->
  exists y, merge_forward sz m d = Ok y /\ gt_type y = mg_out _ m /\
    gt_data y = concat (map gt_data ys) /\
    ft_reps (gt_type y) = concat (map (fun z => ft_reps (gt_type z)) ys).
Proof.
  intros GS Rp A sz fits gs_eqb modules m d ys H F.
  assert (EM : mg_mods A m = map (fun p => (fst p, label_list (snd p))) modules /\
               exists gs, mg_out A m = MkFT gs (concat (map (fun p => ft_reps (sm_out A (fst p))) modules))).
  { clear F. unfold merge_make in H. cbn [fst] in H. destruct modules as [|[m0 l0] rest]; [discriminate|]. destruct (sm_in A m0) as [t0|]; [|discriminate].
    apply assert_ok in H as [_ H]. apply rbind_ok in H as (t & Ht & H). injection H as <-. apply mk_ftype_ok in Ht as [-> W].
    split; [reflexivity|]. eexists. reflexivity. }
  destruct EM as [EM [gs EO]]. clear H.
  assert (R : rmap (fun p => rbind (rmap (dget d) (snd p)) (fun args => sm_fwd A (fst p) args)) (map (fun p => (fst p, label_list (snd p))) modules) = Ok ys).
  { apply rmap_ok_fwd. clear EM EO. induction F as [|p y ps ys' H _ IH]; cbn [map]; constructor; auto. cbn [fst snd].
    destruct H as (args & HA & HF & _). replace (rmap (dget d) (label_list (snd p))) with (Ok args). exact HF.
    symmetry. apply rmap_ok_fwd. clear - HA. induction HA; constructor; auto. unfold dget. rewrite H. reflexivity. }
  assert (ET : concat (map (fun p => ft_reps (sm_out A (fst p))) modules) = concat (map (fun z => ft_reps (gt_type z)) ys)).
  { clear R EM EO. induction F as [|p y ps ys' H _ IH]; cbn; auto. destruct H as (args & _ & _ & HT & _). rewrite IH, HT. reflexivity. }
  assert (EL : length (concat (map gt_data ys)) = nsum (map sz (concat (map (fun z => ft_reps (gt_type z)) ys)))).
  { clear R EM EO ET. induction F as [|p y ps ys' H _ IH]; cbn; auto. destruct H as (args & _ & _ & _ & HL).
    rewrite app_length, map_app, nsum_app, IH, HL. reflexivity. }
  unfold merge_forward. rewrite EM, EO, R. cbn [rbind]. rewrite mk_gt_fwd; [|unfold ft_size; cbn [ft_reps]; congruence].
  eexists. split; [reflexivity|]. split; [reflexivity|]. split; [reflexivity|]. cbn [gt_type ft_reps]. auto.
Qed.
Print Assumptions C40_merge.

(** MultipleModule: the branching, then the modules, then the concatenation. *)
Theorem C40_multiple : forall (GS Rp A : Type) (sz : Rp -> nat) (fits : GS -> Rp -> bool) (gs_eqb : GS -> GS -> bool) (rp_eqb : Rp -> Rp -> bool)
   (t : ftype GS Rp) (labels : list string) (modules : list (submodule A * label_arg)) (level : Z) m,
  (forall g, gs_eqb g g = true) -> (forall r, rp_eqb r r = true) ->
  ft_reps t <> [] -> forallb (fits (ft_gs t)) (ft_reps t) = true ->
  fst (multiple_make sz fits gs_eqb rp_eqb t labels modules level) = Ok m ->
  forall x : gtensor GS Rp A, gt_type x = t -> length (gt_data x) = ft_size sz t ->
  exists d,
    (forall l, In l (map fst d) <-> In l labels) /\ NoDup (map fst d) /\
    (forall l y, In (l, y) d -> exists F, holds_fields sz x F y /\ (forall i, In i F <-> nth_error labels i = Some l) /\ NoDup F) /\
    forall ys, Forall2 (fun p y => exists args, Forall2 (fun l a => kget String.eqb d l = Some a) (label_list (snd p)) args /\
                          sm_fwd _ (fst p) args = Ok y /\ gt_type y = sm_out _ (fst p) /\ length (gt_data y) = ft_size sz (gt_type y)) modules ys ->
    exists y, multiple_forward sz gs_eqb rp_eqb m x = Ok y /\ gt_data y = concat (map gt_data ys) /\
      ft_reps (gt_type y) = concat (map (fun z => ft_reps (gt_type z)) ys).
Proof.
  intros GS Rp A sz fits gs_eqb rp_eqb t labels modules level m G1 G2 W1 W2 H x ET L. unfold multiple_make in H.
  destruct (negb _); [discriminate|]. destruct (branching_make sz fits t labels level) as [br|] eqn:EB; [|discriminate].
  destruct (rmap (check_branch gs_eqb rp_eqb (br_out br)) modules) as [us|]; [|discriminate].
  cbn [fst] in H. apply rbind_ok in H as (mg & Hm & H). injection H as <-.
  destruct (C40_branching GS Rp A sz fits gs_eqb rp_eqb t labels level br G1 G2 W1 W2 EB x ET L) as (d & ED & ND & K & P).
  exists d. split; [exact K|]. split; [exact ND|]. split.
  { intros l y Hy. destruct (P l y Hy) as (_ & F & P1 & P2 & P3 & _). eauto. }
  intros ys F. destruct (C40_merge GS Rp A sz fits gs_eqb modules mg d ys Hm F) as (y & Q1 & _ & Q2 & Q3).
  exists y. split; [|auto]. unfold multiple_forward. cbn [mm_in mm_branching mm_merging]. rewrite ET, type_refl by auto. cbn [assert_].
  rewrite ED. cbn [rbind]. exact Q1.
Qed.
Print Assumptions C40_multiple.
(** an identity on the fields "a" and a doubling on the fields "b" *)
Definition ex_id (t : ftype unit nat) : submodule (GS := unit) (Rp := nat) nat :=
  MkSM _ (OneType t) t (fun l => match l with [y] => Ok y | _ => Err "TypeError" end).
Definition ex_double (t : ftype unit nat) : submodule (GS := unit) (Rp := nat) nat :=
  MkSM _ (OneType t) t (fun l => match l with [y] => Ok (MkGT (map (Nat.mul 2) (gt_data y)) t) | _ => Err "TypeError" end).
Definition ex_modules : list (submodule (GS := unit) (Rp := nat) nat * label_arg) :=
  [(ex_id (MkFT tt [1; 1]), LStr "a"); (ex_double (MkFT tt [2; 1]), LStr "b")]%string.
Example C40_multiple_ex : exists m, fst (multiple_make (fun n => n) (fun _ _ => true) (fun _ _ => true) Nat.eqb ex_types ex_labels ex_modules 0) = Ok m /\
  multiple_forward (fun n => n) (fun _ _ => true) Nat.eqb m ex_tensor = Ok (MkGT [20; 40; 20; 22; 60] (MkFT tt [1; 1; 2; 1])).
Proof. eexists. split; reflexivity. Qed.

(** ** C33 for the containers *)
(** BranchingModule announces, for every label, the number of channels of the tensor it returns. *)
Theorem C33_branching_shape : forall (GS Rp A : Type) (sz : Rp -> nat) (fits : GS -> Rp -> bool) (gs_eqb : GS -> GS -> bool) (rp_eqb : Rp -> Rp -> bool)
   (t : ftype GS Rp) (labels : list string) (level : Z) m b h w,
  (forall g, gs_eqb g g = true) -> (forall r, rp_eqb r r = true) ->
  ft_reps t <> [] -> forallb (fits (ft_gs t)) (ft_reps t) = true ->
  branching_make sz fits t labels level = Ok m ->
  forall x : gtensor GS Rp A, gt_type x = t -> length (gt_data x) = ft_size sz t ->
  exists ys shapes, branching_forward sz gs_eqb rp_eqb m x = Ok ys /\
    branching_shape sz m (b, Z.of_nat (length (gt_data x)), h, w) = Ok shapes /\
    forall l y, In (l, y) ys -> kget String.eqb shapes l = Some (b, Z.of_nat (length (gt_data y)), h, w).
Proof.
  intros GS Rp A sz fits gs_eqb rp_eqb t labels level m b h w G1 G2 W1 W2 H x ET L.
  destruct (C40_branching GS Rp A sz fits gs_eqb rp_eqb t labels level m G1 G2 W1 W2 H x ET L) as (ys & E & _ & _ & P).
  exists ys. eexists. split; [exact E|]. split.
  { unfold branching_shape. assert (br_in m = t) as ->.
    { unfold branching_make in H. apply assert_ok in H as [_ H]. apply assert_ok in H as [_ H]. apply rbind_ok in H as ([[? ?] ?] & _ & H).
      apply rbind_ok in H as (? & _ & H). apply rbind_ok in H as (? & _ & H). injection H as <-. reflexivity. }
    rewrite L, Z.eqb_refl. reflexivity. }
  intros l y Hy. destruct (P l y Hy) as (P1 & F & P2 & _). clear - P1 P2 L ET.
  assert (LY : length (gt_data y) = ft_size sz (gt_type y)) by (eapply holds_length; eauto; congruence).
  rewrite LY. clear P2 LY. induction (br_out m) as [|[k v] o IH]; [discriminate|]. cbn in *. destruct (String.eqb k l); [|auto].
  injection P1 as ->. reflexivity.
Qed.
Print Assumptions C33_branching_shape.
(** Refuted for MultipleModule: evaluate_output_shape never succeeds. *)
Theorem C33_multiple_shape_refuted : forall (GS Rp A : Type) (sz : Rp -> nat) (m : multiple (GS := GS) (Rp := Rp) A) shape out,
  multiple_shape sz m shape <> Ok out.
Proof. intros GS Rp A sz m shape out H. unfold multiple_shape in H. destruct (branching_shape sz (mm_branching A m) shape); discriminate. Qed.
Print Assumptions C33_multiple_shape_refuted.

(** ** C50 *)
(** MergeModule rewrites the caller's list (strings become lists), but may be built again from it with the same result. *)
Theorem C50_merge_rebuild : forall (GS Rp A : Type) (fits : GS -> Rp -> bool) (gs_eqb : GS -> GS -> bool) (modules : list (submodule (GS := GS) (Rp := Rp) A * label_arg)),
  fst (merge_make fits gs_eqb (snd (merge_make fits gs_eqb modules))) = fst (merge_make fits gs_eqb modules).
Proof.
  intros GS Rp A fits gs_eqb modules. unfold merge_make. cbn [fst snd].
  destruct modules as [|[m0 a0] rest]; [reflexivity|]. cbn [map fst snd label_list]. destruct (sm_in A m0) as [t0|]; [|reflexivity].
  rewrite !map_map. cbn [forallb fst snd label_list].
  replace (forallb (fun p => forallb (fun t => gs_eqb (ft_gs t) (ft_gs t0)) (in_types (sm_in A (fst p)))) (map (fun p => (fst p, LList (label_list (snd p)))) rest))
    with (forallb (fun p : submodule A * label_arg => forallb (fun t => gs_eqb (ft_gs t) (ft_gs t0)) (in_types (sm_in A (fst p)))) rest).
  - reflexivity.
  - induction rest as [|p rest IH]; cbn; auto. rewrite IH. reflexivity.
Qed.
Print Assumptions C50_merge_rebuild.
(** Refuted: the caller's list is changed, and building a MultipleModule a second time from it raises. *)
Theorem C50_rebuild_refuted : exists m modules',
  multiple_make (fun n => n) (fun _ _ => true) (fun _ _ => true) Nat.eqb ex_types ex_labels ex_modules 0 = (Ok m, modules') /\
  modules' <> ex_modules /\
  fst (multiple_make (fun n => n) (fun _ _ => true) (fun _ _ => true) Nat.eqb ex_types ex_labels modules' 0) = Err "TypeError".
Proof. do 2 eexists. split; [reflexivity|]. split; [discriminate|reflexivity]. Qed.
Print Assumptions C50_rebuild_refuted.
