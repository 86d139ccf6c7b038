(** For C62: checkpoints. *)
From Coq Require Import Reals ZArith String List Bool Lia.
From Verif Require Import Base Model_Groups Model_Rep Model_FieldType Proofs_FieldType Model_GSpace Model_Expansion Model_Conv Model_ConvT Model_Checkpoint Spec_Checkpoint.
Import ListNotations.
Open Scope R_scope.

Lemma nat_list_eqb_refl l : list_eqb Nat.eqb l l = true.
Proof. induction l; cbn; rewrite ?Nat.eqb_refl; auto. Qed.

Section Checkpoint.
Context {G B : Type}.
Notation smod := (smod G B).
Notation net := (net G B).
Notation tensor := (arr (B -> vec) * ctype G)%type.

(** ** states that histories reach *)
Definition cstate_ok (ph : option bool) (dim nb : nat) (hb : bool) (st : cstate) : Prop :=
  length (cs_w st) = dim /\ length (cs_b st) = nb /\
  match ph with
  | Some true => cs_training st = true /\ cs_filter st = None /\ cs_bias st = None
  | _ => cs_training st = match ph with None => true | Some b => b end /\ (exists f, cs_filter st = Some f) /\ (if hb then exists v, cs_bias st = Some (Some v) else cs_bias st = Some None)
  end.
Definition inv (ph : option bool) (u : smod) : Prop :=
  match u with
  | UConv m st => cstate_ok ph (be_dimension kid_eqb (cv_exp m)) (biases (cv_bias m)) (some (cv_bias m)) st
  | UConvT m st => cstate_ok ph (be_dimension kid_eqb (tc_exp m)) (biases (tc_bias m)) (some (tc_bias m)) st
  | UPlain p tr vals => tr = match ph with None => true | Some b => b end /\ sizes p vals /\ NoDup (map fst (pl_names p)) /\
      forall tr vals x y, sizes p vals -> pl_forward p tr vals x = Ok y -> sizes p (snd y)
  end.
Definition netinv ph (n : net) : Prop := NoDup (map fst n) /\ Forall (fun a => inv ph (snd a)) n.

Lemma built_inv (n : net) : built_net n -> netinv None n.
Proof.
  intros [N H]. split; [exact N|]. apply Forall_forall. intros [s u] Hu. specialize (H _ Hu). cbn [snd] in *. destruct u as [m st|m st|p tr vals]; cbn [built inv] in *; [| |exact H].
  - destruct H as (w & b & H1 & H2 & ->). split; [exact H1|]. split; [exact H2|]. split; [reflexivity|]. split; [eexists; reflexivity|]. cbn [initial_state cs_bias some]. destruct (cv_bias m); cbn; eauto.
  - destruct H as (w & b & H1 & H2 & ->). split; [exact H1|]. split; [exact H2|]. split; [reflexivity|]. split; [eexists; reflexivity|]. cbn [initial_state_t cs_bias some]. destruct (tc_bias m); cbn; eauto.
Qed.

(** ** entries replaced by entries of the same shape *)
Definition keeps (look : string -> tval -> tval) : Prop := forall k old, same_shape (look k old) old = true.
Lemma same_shape_refl v : same_shape v v = true.
Proof. destruct v; cbn; rewrite ?nat_list_eqb_refl, ?Nat.eqb_refl; reflexivity. Qed.
Lemma as_nums_len v l s : same_shape v (TTensor s l) = true -> length (as_nums v l) = length l.
Proof. destruct v; cbn; try discriminate. rewrite andb_true_iff. intros [_ H]. apply Nat.eqb_eq. exact H. Qed.
Lemma cstate_load_ok ph dim nb hb sh n look st : keeps look -> cstate_ok ph dim nb hb st -> cstate_ok ph dim nb hb (cstate_load hb sh n look st).
Proof.
  intros K (H1 & H2 & H3). unfold cstate_load, cstate_ok. cbn [cs_w cs_b cs_training cs_filter cs_bias]. split; [rewrite (as_nums_len _ _ [length (cs_w st)]); auto; apply K|].
  split; [destruct hb; auto; rewrite (as_nums_len _ _ [length (cs_b st)]); auto; apply K|].
  assert (M : forall t, (cs_training st = t /\ (exists f, cs_filter st = Some f) /\ (if hb then exists v, cs_bias st = Some (Some v) else cs_bias st = Some None)) -> (cs_training st = t /\
    (exists f, match cs_filter st with Some f => Some (as_filter (look "filter"%string (TFilter (fst (fst sh)) (snd (fst sh)) (snd sh) f)) f) | None => None end = Some f) /\
    (if hb then exists v, match cs_bias st with Some (Some v) => Some (Some (as_vec (look "expanded_bias"%string (TVec n v)) v)) | o => o end = Some (Some v)
     else match cs_bias st with Some (Some v) => Some (Some (as_vec (look "expanded_bias"%string (TVec n v)) v)) | o => o end = Some None))).
  { intros t (A1 & [f ->] & A3). split; [exact A1|]. split; [eexists; reflexivity|]. destruct hb; [destruct A3 as [v ->]; eexists; reflexivity|rewrite A3; reflexivity]. }
  destruct ph as [[|]|]; [|apply M; exact H3|apply M; exact H3]. destruct H3 as (A1 & -> & ->). auto.
Qed.
Lemma sizes_put (p : plain G B) (look : string -> tval -> tval) vals : keeps look -> sizes p vals -> sizes p (map (fun nv => as_nums (look (fst (fst nv)) (TTensor (snd (fst nv)) (snd nv))) (snd nv)) (combine (pl_names p) vals)).
Proof.
  intros K H. unfold sizes in *. induction H as [|nv v l l' E H IH]; cbn [combine map]; constructor; [|exact IH]. cbn [fst snd]. rewrite (as_nums_len _ _ (snd nv)); [exact E|apply K].
Qed.
Lemma put_inv ph look (u : smod) : keeps look -> inv ph u -> inv ph (put_entries look u).
Proof.
  intros K. destruct u as [m st|m st|p tr vals]; cbn [put_entries inv]; [apply cstate_load_ok; auto|apply cstate_load_ok; auto|]. intros (H1 & H2 & H3). split; [exact H1|]. split; [apply sizes_put; auto|exact H3].
Qed.
Lemma put_net_inv ph (look : string -> smod -> string -> tval -> tval) (n : net) : (forall s u, keeps (look s u)) -> netinv ph n -> netinv ph (map (fun a => (fst a, put_entries (look (fst a) (snd a)) (snd a))) n).
Proof.
  intros K [N H]. split; [rewrite map_map; exact N|]. clear N. induction H as [|a n Ha H IH]; cbn [map]; constructor; [apply put_inv; auto; apply K|exact IH].
Qed.
Lemma copied_keeps d s : keeps (copied d s).
Proof. intros k old. unfold copied. destruct (find_key (s, k) d) as [v|]; [|apply same_shape_refl]. destruct (same_shape v old) eqn:E; [exact E|apply same_shape_refl]. Qed.
Lemma updated_keeps f s (u : smod) : keeps (updated f s u).
Proof. intros k old. unfold updated. destruct (match u with UPlain _ _ _ => false | _ => _ end); [apply same_shape_refl|]. destruct (same_shape (f s k old) old) eqn:E; [exact E|apply same_shape_refl]. Qed.

(** ** train *)
Lemma conv_train_ok (m : r2conv G) ph b st st' : cstate_ok ph (be_dimension kid_eqb (cv_exp m)) (biases (cv_bias m)) (some (cv_bias m)) st -> conv_train m b st = Ok st' ->
  cstate_ok (Some b) (be_dimension kid_eqb (cv_exp m)) (biases (cv_bias m)) (some (cv_bias m)) st'.
Proof.
  intros (H1 & H2 & H3) E. unfold conv_train in E. destruct b; [injection E as <-; split; [exact H1|]; split; [exact H2|]; auto|].
  destruct (cs_training st) eqn:T.
  - apply rbind_ok in E as (fb & X & E). injection E as <-. split; [exact H1|]. split; [exact H2|]. cbn. split; [reflexivity|]. split; [eexists; reflexivity|]. unfold expand_parameters in X. apply rbind_ok in X as (f & _ & X). injection X as <-. cbn [snd].
    destruct (cv_bias m); cbn; eauto.
  - injection E as <-. split; [exact H1|]. split; [exact H2|]. destruct ph as [[|]|]; destruct H3 as (A1 & A2); try congruence. cbn. split; [exact T|exact A2].
Qed.
Lemma tconv_train_ok (m : tconv G) ph b st st' : cstate_ok ph (be_dimension kid_eqb (tc_exp m)) (biases (tc_bias m)) (some (tc_bias m)) st -> tconv_train m b st = Ok st' ->
  cstate_ok (Some b) (be_dimension kid_eqb (tc_exp m)) (biases (tc_bias m)) (some (tc_bias m)) st'.
Proof.
  intros (H1 & H2 & H3) E. unfold tconv_train in E. destruct b; [injection E as <-; split; [exact H1|]; split; [exact H2|]; auto|].
  destruct (cs_training st) eqn:T.
  - apply rbind_ok in E as (fb & X & E). injection E as <-. split; [exact H1|]. split; [exact H2|]. cbn. split; [reflexivity|]. split; [eexists; reflexivity|]. unfold expand_parameters_t in X. apply rbind_ok in X as (f & _ & X). injection X as <-. cbn [snd].
    destruct (tc_bias m); cbn; eauto.
  - injection E as <-. split; [exact H1|]. split; [exact H2|]. destruct ph as [[|]|]; destruct H3 as (A1 & A2); try congruence. cbn. split; [exact T|exact A2].
Qed.
Lemma train_inv ph b (n n' : net) : netinv ph n -> train b n = Ok n' -> netinv (Some b) n' /\ Forall2 (fun a a' : string * smod => fst a = fst a' /\ same_module (snd a) (snd a')) n n'.
Proof.
  intros [N H]. unfold train. intros E. assert (K : Forall2 (fun a a' : string * smod => fst a = fst a' /\ same_module (snd a) (snd a') /\ inv (Some b) (snd a')) n n').
  { clear N. revert n' E. induction H as [|a n Ha H IH]; intros n' E; cbn [rmap] in E; [injection E as <-; constructor|].
    apply rbind_ok in E as (a' & Ea & E). apply rbind_ok in E as (l & El & E). injection E as <-. constructor; [|apply IH; exact El]. apply rbind_ok in Ea as (u & Eu & Ea). injection Ea as <-. cbn [fst snd]. split; [reflexivity|].
    destruct (snd a) as [m st|m st|p tr vals]; cbn [smod_train inv] in *.
    - apply rbind_ok in Eu as (st' & Es & Eu). injection Eu as <-. split; [reflexivity|]. eapply conv_train_ok; eauto.
    - apply rbind_ok in Eu as (st' & Es & Eu). injection Eu as <-. split; [reflexivity|]. eapply tconv_train_ok; eauto.
    - injection Eu as <-. split; [reflexivity|]. split; [reflexivity|]. apply Ha. }
  clear E H. split; [split|].
  - replace (map fst n') with (map fst n); [exact N|]. clear N. induction K as [|a a' n n' (E & _) K IH]; cbn; [reflexivity|]. f_equal; auto.
  - clear N. induction K as [|a a' n n' (_ & _ & E) K IH]; constructor; auto.
  - clear N. induction K as [|a a' n n' (E1 & E2 & _) K IH]; constructor; auto.
Qed.
Lemma same_module_refl (u : smod) : same_module u u.
Proof. destruct u; reflexivity. Qed.
Lemma forward_inv ph (n : net) x y : netinv ph n -> forward n x = Ok y -> netinv ph (snd y) /\ Forall2 (fun a a' : string * smod => fst a = fst a' /\ same_module (snd a) (snd a')) n (snd y).
Proof.
  intros [N H] E. assert (K : Forall2 (fun a a' : string * smod => fst a = fst a' /\ same_module (snd a) (snd a') /\ inv ph (snd a')) n (snd y)).
  { clear N. revert x y E. induction H as [|a n Ha H IH]; intros x y E; cbn [forward] in E; [injection E as <-; constructor|].
    apply rbind_ok in E as (z & Ez & E). apply rbind_ok in E as (z' & Ez' & E). injection E as <-. cbn [snd]. constructor; [|eapply IH; exact Ez']. cbn [fst snd]. split; [reflexivity|].
    destruct (snd a) as [m st|m st|p tr vals]; cbn [smod_forward inv] in *.
    - apply rbind_ok in Ez as (v & _ & Ez). injection Ez as <-. cbn [snd]. split; [reflexivity|exact Ha].
    - apply rbind_ok in Ez as (v & _ & Ez). injection Ez as <-. cbn [snd]. split; [reflexivity|exact Ha].
    - apply rbind_ok in Ez as (v & Ev & Ez). injection Ez as <-. cbn [snd]. split; [reflexivity|]. destruct Ha as (A1 & A2 & A3 & A4). split; [exact A1|]. split; [eapply A4; eauto|]. auto. }
  clear E H. split; [split|].
  - replace (map fst (snd y)) with (map fst n); [exact N|]. clear N. induction K as [|a a' n n' (E & _) K IH]; cbn; [reflexivity|]. f_equal; auto.
  - clear N. induction K as [|a a' n n' (_ & _ & E) K IH]; constructor; auto.
  - clear N. induction K as [|a a' n n' (E1 & E2 & _) K IH]; constructor; auto.
Qed.
Lemma put_arch (look : string -> smod -> string -> tval -> tval) (n : net) : same_architecture n (map (fun a => (fst a, put_entries (look (fst a) (snd a)) (snd a))) n).
Proof. induction n as [|a n IH]; cbn [map]; constructor; [|exact IH]. split; [reflexivity|]. cbn [snd]. destruct (snd a); reflexivity. Qed.
Lemma same_module_trans (a b c : smod) : same_module a b -> same_module b c -> same_module a c.
Proof. destruct a, b, c; cbn; try tauto; congruence. Qed.
Lemma same_module_sym (a b : smod) : same_module a b -> same_module b a.
Proof. destruct a, b; cbn; try tauto; congruence. Qed.
Lemma arch_trans (a b c : net) : same_architecture a b -> same_architecture b c -> same_architecture a c.
Proof.
  intros H. revert c. induction H as [|x y a b [E M] H IH]; intros c K; inversion K as [|y' z b' c' [E' M'] K']; subst; constructor; [|apply IH; auto]. split; [congruence|]. eapply same_module_trans; eauto.
Qed.
Lemma arch_refl (a : net) : same_architecture a a.
Proof. induction a; constructor; auto. split; [reflexivity|apply same_module_refl]. Qed.
Lemma arch_sym (a b : net) : same_architecture a b -> same_architecture b a.
Proof. induction 1 as [|x y a b [E M] H IH]; constructor; auto. split; [auto|apply same_module_sym; exact M]. Qed.

Lemma history_inv ops ph (n n' : net) : netinv ph n -> history ops n = Ok n' -> netinv (match last_mode ops with Some b => Some b | None => ph end) n' /\ same_architecture n n'.
Proof.
  revert ph n. induction ops as [|o ops IH]; intros ph n I E; cbn [history last_mode] in *.
  - injection E as <-. split; [exact I|apply arch_refl].
  - apply rbind_ok in E as (n1 & E1 & E).
    assert (S : netinv (match o with HTrain b => Some b | _ => ph end) n1 /\ same_architecture n n1).
    { destruct o as [b|f|x|s d]; cbn [hstep] in E1.
      - exact (train_inv ph b n n1 I E1).
      - injection E1 as <-. split; [apply (put_net_inv ph (fun s u => updated f s u)); auto; intros; apply updated_keeps|apply (put_arch (fun s u => updated f s u))].
      - apply rbind_ok in E1 as (y & Ey & E1). injection E1 as <-. exact (forward_inv ph n x y I Ey).
      - injection E1 as <-. split; [apply (put_net_inv ph (fun s _ => copied d s)); auto; intros; apply copied_keeps|apply (put_arch (fun s _ => copied d s))]. }
    destruct S as [S1 S2]. destruct (IH _ _ S1 E) as [J1 J2]. split; [|eapply arch_trans; eauto]. destruct (last_mode ops); [exact J1|]. destruct o; exact J1.
Qed.
End Checkpoint.
