(** Proofs about SequentialModule. *)
From Coq Require Import Decimal DecimalString DecimalNat DecimalFacts.
From Coq Require Import ZArith String Ascii List Bool Lia.
From Verif Require Import Base Model_Groups Model_FieldType Model_Utils Model_Modules Spec_Modules Proofs_FieldType.
Import ListNotations.
Open Scope nat_scope.

Lemma has_dot_uint : forall d, has_dot (NilEmpty.string_of_uint d) = false.
Proof. induction d; cbn; auto. Qed.
Lemma to_uint_nonnil n : Nat.to_uint n <> Nil.
Proof. rewrite <- (Unsigned.of_to n), Unsigned.to_of. apply unorm_nonnil. Qed.
Lemma py_str_eq n : py_str n = NilEmpty.string_of_uint (Nat.to_uint n).
Proof. unfold py_str, NilZero.string_of_uint. pose proof (to_uint_nonnil n). destruct (Nat.to_uint n); auto. congruence. Qed.
Lemma py_str_inj n m : py_str n = py_str m -> n = m.
Proof.
  rewrite !py_str_eq. intros H. apply (f_equal NilEmpty.uint_of_string) in H. rewrite !NilEmpty.usu in H.
  injection H as H. apply Unsigned.to_uint_inj; auto.
Qed.
Lemma py_str_legal attr n : attr (py_str n) = false -> legal attr (py_str n).
Proof.
  intros H. split; [auto|]. rewrite py_str_eq. split; [apply has_dot_uint|]. intros E.
  pose proof (to_uint_nonnil n). destruct (Nat.to_uint n); cbn in E; congruence.
Qed.

Lemma chained_nil {A} (R : A -> A -> Prop) : chained R [].
Proof. intros i a b H. destruct i; discriminate. Qed.
Lemma chained_snoc {A} (R : A -> A -> Prop) l x : chained R (l ++ [x]) <->
  chained R l /\ match rev l with [] => True | a :: _ => R a x end.
Proof.
  split.
  - intros H. split.
    + intros i a b H1 H2. apply (H i); (rewrite nth_error_app1; [auto|]); apply nth_error_Some; congruence.
    + destruct (rev l) as [|a r] eqn:E; auto. assert (E' : l = rev r ++ [a]) by (rewrite <- (rev_involutive l), E; reflexivity).
      apply (H (length (rev r))); subst l; rewrite <- app_assoc; rewrite nth_error_app2 by lia.
      * rewrite Nat.sub_diag. reflexivity.
      * replace (S (length (rev r)) - length (rev r)) with 1 by lia. reflexivity.
  - intros [H1 H2] i a b Ha Hb.
    destruct (Nat.lt_ge_cases (S i) (length l)) as [L|L].
    { rewrite nth_error_app1 in Ha, Hb by lia. eapply H1; eauto. }
    rewrite nth_error_app2 in Hb by auto.
    destruct (S i - length l) eqn:E2; [|destruct n; discriminate]. injection Hb as <-.
    destruct (rev l) as [|a' r] eqn:E.
    { apply (f_equal (@rev A)) in E. rewrite rev_involutive in E. subst l. cbn in E2. lia. }
    assert (E' : l = rev r ++ [a']) by (rewrite <- (rev_involutive l), E; reflexivity).
    rewrite nth_error_app1 in Ha by lia. subst l. rewrite app_length in E2, L. cbn [length] in E2, L.
    assert (Ei : i = length (rev r)) by lia. rewrite nth_error_app2, Ei, Nat.sub_diag in Ha by lia. cbn in Ha. injection Ha as <-. auto.
Qed.
Lemma chained_cons {A} (R : A -> A -> Prop) a l : chained R (a :: l) <->
  match l with [] => True | b :: _ => R a b end /\ chained R l.
Proof.
  split.
  - intros H. split; [destruct l; auto; apply (H 0); auto|]. intros i x y H1 H2. apply (H (S i)); auto.
  - intros [H1 H2] [|i] x y E1 E2; cbn in *.
    + injection E1 as <-. destruct l; [discriminate|]. injection E2 as <-. auto.
    + eapply H2; eauto.
Qed.

Section Seq.
Context {T X : Type} (type_eqb : T -> T -> bool) (ty : X -> T) (attr : string -> bool).
Notation M := (emodule T X).
Notation adj := (fun a b : M => type_eqb (em_in b) (em_out a) = true).

Definition canon (mods : list (string * M)) : seqmod T X :=
  MkSeq (match map snd mods with [] => None | m :: _ => Some (em_in m) end)
        (match rev (map snd mods) with [] => None | m :: _ => Some (em_out m) end) mods.
Lemma kset_fresh (d : list (string * M)) n m : ~ In n (map fst d) -> kset String.eqb d n m = d ++ [(n, m)].
Proof.
  induction d as [|[k v] d IH]; cbn; intros H; auto. destruct (String.eqb_spec k n); [tauto|]. rewrite IH by tauto. reflexivity.
Qed.
Lemma seq_add_canon mods n m : legal attr n -> ~ In n (map fst mods) ->
  seq_add type_eqb attr (canon mods) n m =
  if match rev (map snd mods) with [] => true | a :: _ => type_eqb (em_in m) (em_out a) end
  then (canon (mods ++ [(n, m)]), Ok tt) else (canon mods, Err "AssertionError").
Proof.
  intros (L1 & L2 & L3) F. unfold seq_add, torch_add. cbn [canon sq_mods sq_in sq_out].
  rewrite L1, L2. destruct (String.eqb_spec n ""); [tauto|]. cbn [orb].
  destruct mods as [|p mods].
  { cbn. reflexivity. }
  cbn [opt_eqb]. destruct (rev (map snd (p :: mods))) as [|a r] eqn:E.
  { apply (f_equal (@rev M)) in E. rewrite rev_involutive in E. discriminate. }
  cbn [opt_eqb]. destruct (type_eqb (em_in m) (em_out a)); [|reflexivity].
  cbn [sq_mods sq_in sq_out]. rewrite kset_fresh by auto. unfold canon.
  rewrite !map_app, rev_app_distr. cbn. reflexivity.
Qed.

Lemma seq_build_canon l : forall mods, Forall (fun p => legal attr (fst p)) l -> NoDup (map fst (mods ++ l)) ->
  chained adj (map snd mods) ->
  (chained adj (map snd (mods ++ l)) -> seq_build type_eqb attr (canon mods) l = Ok (canon (mods ++ l))) /\
  (~ chained adj (map snd (mods ++ l)) -> seq_build type_eqb attr (canon mods) l = Err "AssertionError").
Proof.
  induction l as [|[n m] l IH]; intros mods L ND C.
  { rewrite app_nil_r. cbn. split; [auto|]. intros H; elim H; auto. }
  inversion L as [|? ? L1 L2]; subst. cbn [fst] in L1.
  assert (F : ~ In n (map fst mods)).
  { rewrite map_app in ND. cbn in ND. apply NoDup_remove_2 in ND. rewrite in_app_iff in ND. tauto. }
  cbn [seq_build]. rewrite seq_add_canon by auto.
  replace (mods ++ (n, m) :: l) with ((mods ++ [(n, m)]) ++ l) in * by (rewrite <- app_assoc; reflexivity).
  assert (K : chained adj (map snd ((mods ++ [(n, m)]) ++ l)) -> chained adj (map snd (mods ++ [(n, m)]))).
  { rewrite map_app. intros H i a b H1 H2. apply (H i); (rewrite nth_error_app1; [auto|]); apply nth_error_Some; congruence. }
  pose proof (chained_snoc adj (map snd mods) m) as SN. rewrite <- (map_app snd mods [(n, m)]) in SN || idtac.
  assert (SN' : chained adj (map snd (mods ++ [(n, m)])) <-> match rev (map snd mods) with [] => True | a :: _ => adj a m end).
  { rewrite map_app. cbn [map snd]. rewrite chained_snoc. tauto. }
  destruct (rev (map snd mods)) as [|a r] eqn:E.
  - apply IH; auto. apply SN'. exact I.
  - destruct (type_eqb (em_in m) (em_out a)) eqn:TE.
    + apply IH; auto. apply SN'. auto.
    + split; [|auto]. intros H. apply K, SN' in H. congruence.
Qed.

(** histories *)
Lemma is_chain_canon mods : chained adj (map snd mods) -> is_chain type_eqb (map snd mods) (canon mods).
Proof. intros H. repeat split; auto. Qed.
Lemma seq_empty_canon : seq_empty = canon [].
Proof. reflexivity. Qed.
Lemma history_canon l : forall mods, Forall (fun p => legal attr (fst p)) l -> NoDup (map fst l) ->
  (forall n, In n (map fst l) -> ~ In n (map fst mods)) -> chained adj (map snd mods) ->
  exists mods', seq_history type_eqb attr (canon mods) l = canon mods' /\ chained adj (map snd mods').
Proof.
  induction l as [|[n m] l IH]; intros mods L ND D C.
  { exists mods. auto. }
  inversion L as [|? ? L1 L2]; subst. cbn [fst] in L1. cbn in ND. inversion ND as [|? ? N1 N2]; subst.
  unfold seq_history. cbn [fold_left fst snd]. rewrite seq_add_canon; [|auto|apply D; cbn; auto].
  destruct (match rev (map snd mods) with [] => true | a :: _ => type_eqb (em_in m) (em_out a) end) eqn:E; cbn [fst].
  - apply (IH (mods ++ [(n, m)])); auto.
    + intros k Hk. rewrite map_app, in_app_iff. cbn. intros [H|[H|[]]]; [apply (D k); cbn; auto|]. subst. auto.
    + rewrite map_app. cbn [map snd]. apply chained_snoc. split; auto. destruct (rev (map snd mods)); auto.
  - apply IH; auto. intros k Hk. apply D. cbn; auto.
Qed.

Context (type_refl : forall t, type_eqb t t = true)
        (type_sym : forall t u, type_eqb t u = true -> type_eqb u t = true)
        (type_trans : forall t u v, type_eqb t u = true -> type_eqb u v = true -> type_eqb t v = true).

Lemma run_all_composed (l : list M) : forall x y, run_all l x = Ok y <-> composed l x y.
Proof.
  induction l as [|m l IH]; intros x y; cbn [run_all]; split; intros H.
  - injection H as <-. constructor.
  - inversion H; auto.
  - apply rbind_ok in H as (z & H1 & H2). econstructor; eauto. apply IH; auto.
  - inversion H; subst. match goal with E : em_fwd _ _ = Ok _ |- _ => rewrite E end. apply IH; auto.
Qed.
Lemma run_all_typed (l : list M) : forall t x, Forall (sound type_eqb ty) l -> chained adj l ->
  match l with [] => True | m :: _ => type_eqb t (em_in m) = true end -> type_eqb (ty x) t = true ->
  exists y, run_all l x = Ok y /\ type_eqb (ty y) (match rev l with [] => t | m :: _ => em_out m end) = true.
Proof.
  induction l as [|m l IH]; intros t x S C H Hx.
  { exists x. cbn. auto. }
  inversion S as [|? ? S1 S2]; subst. apply chained_cons in C as [C1 C2].
  destruct (S1 x) as (z & E & Tz). { eapply type_trans; eauto. }
  destruct (IH (em_out m) z) as (y & E1 & T1); auto.
  { destruct l; auto. }
  exists y. cbn [run_all]. rewrite E. cbn [rbind]. split; auto.
  cbn [rev]. destruct (rev l); auto.
Qed.

Context {G : Type} (act : G -> X -> X) (same : X -> X -> Prop)
        (act_ty : forall g x, type_eqb (ty (act g x)) (ty x) = true)
        (same_ty : forall x y, same x y -> type_eqb (ty x) (ty y) = true)
        (same_refl : forall x, same x x)
        (same_sym : forall x y, same x y -> same y x)
        (same_trans : forall x y z, same x y -> same y z -> same x z).
Lemma run_all_same (l : list M) : forall x x' y, Forall (sound type_eqb ty) l -> Forall (equivariant type_eqb ty act same) l -> chained adj l ->
  match l with [] => True | m :: _ => type_eqb (ty x) (em_in m) = true end -> same x x' -> run_all l x = Ok y ->
  exists y', run_all l x' = Ok y' /\ same y y'.
Proof.
  induction l as [|m l IH]; intros x x' y S E C Hx Sx R.
  { cbn in *. injection R as <-. eauto. }
  inversion S as [|? ? S1 S2]; subst. inversion E as [|? ? E1 E2]; subst. apply chained_cons in C as [C1 C2].
  cbn [run_all] in R. apply rbind_ok in R as (z & Rz & R). destruct E1 as [_ E1].
  destruct (E1 x x' z Hx Sx Rz) as (z' & Rz' & Sz). cbn [run_all]. rewrite Rz'. cbn [rbind].
  destruct (S1 x Hx) as (z2 & Rz2 & Tz). rewrite Rz in Rz2. injection Rz2 as <-.
  apply (IH z z' y); auto. destruct l; auto. eapply type_trans; [exact Tz|]. auto.
Qed.
Lemma run_all_equiv (l : list M) : forall g x y, Forall (sound type_eqb ty) l -> Forall (equivariant type_eqb ty act same) l -> chained adj l ->
  match l with [] => True | m :: _ => type_eqb (ty x) (em_in m) = true end -> run_all l x = Ok y ->
  exists y', run_all l (act g x) = Ok y' /\ same y' (act g y).
Proof.
  induction l as [|m l IH]; intros g x y S E C Hx R.
  { cbn in *. injection R as <-. eauto. }
  pose proof E as E0. pose proof S as S0.
  inversion S as [|? ? S1 S2]; subst. inversion E as [|? ? E1 E2]; subst. apply chained_cons in C as [C1 C2].
  cbn [run_all] in R. apply rbind_ok in R as (z & Rz & R). destruct E1 as [E1 _].
  destruct (E1 g x z Hx Rz) as (z' & Rz' & Sz). cbn [run_all]. rewrite Rz'. cbn [rbind].
  destruct (S1 x Hx) as (z2 & Rz2 & Tz). rewrite Rz in Rz2. injection Rz2 as <-.
  assert (Tl : match l with [] => True | m :: _ => type_eqb (ty z) (em_in m) = true end).
  { destruct l; auto. eapply type_trans; [exact Tz|]. auto. }
  destruct (IH g z y) as (w & Rw & Sw); auto.
  destruct (run_all_same l (act g z) z' w) as (y' & Ry & Sy); auto.
  { destruct l; auto. eapply type_trans; [apply act_ty|auto]. }
  exists y'. split; auto. eapply same_trans; [apply same_sym; exact Sy|exact Sw].
Qed.
End Seq.
