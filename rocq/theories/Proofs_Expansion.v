(** Lemmas on the expansion of the bases (C28). *)
From Coq Require Import Reals ZArith String List Bool Lia Lra Sorting.Sorted Sorting.Permutation Arith.
From Verif Require Import Base Model_Groups Model_Rep Model_FieldType Model_Utils Model_Expansion
  Proofs_FieldType Proofs_FieldType2 Proofs_Utils.
Import ListNotations.
Open Scope nat_scope.

Lemma key_eqb_spec a b : reflect (a = b) (key_eqb a b).
Proof.
  destruct a as [a1 a2], b as [b1 b2]. unfold key_eqb. cbn [fst snd].
  destruct (String.eqb_spec a1 b1); [|constructor; congruence]. destruct (String.eqb_spec a2 b2); constructor; congruence.
Qed.
Lemma insert_pair_perm a l : Permutation (a :: l) (insert_pair a l).
Proof. induction l as [|b l IH]; cbn; [auto|]. destruct (pair_leb a b); [auto|]. eapply perm_trans; [apply perm_swap|]. auto. Qed.
Lemma sort_pairs_perm l : Permutation l (sort_pairs l).
Proof. induction l as [|a l IH]; cbn; [auto|]. eapply perm_trans; [apply perm_skip, IH|]. apply insert_pair_perm. Qed.

Section Blocks.
Context {Rp At Id : Type} (rname : Rp -> string) (rsize rirr : Rp -> nat) (rp_eqb : Rp -> Rp -> bool)
        (at_id : At -> Id) (at_in at_out : At -> nat) (id_eqb : Id -> Id -> bool).
Hypothesis Hid : forall a b, reflect (a = b) (id_eqb a b).
Hypothesis Hrefl : forall r, rp_eqb r r = true.
Hypothesis Hname : forall a b, rp_eqb a b = true -> rname a = rname b.

Notation fullid_eqb := (fullid_eqb id_eqb).
Lemma fullid_eqb_spec a b : reflect (a = b) (fullid_eqb a b).
Proof.
  destruct a as [[[[n1 i1] m1] o1] d1], b as [[[[n2 i2] m2] o2] d2]. cbn.
  destruct (String.eqb_spec n1 n2); cbn; [|constructor; congruence]. destruct (Nat.eqb_spec i1 i2); cbn; [|constructor; congruence].
  destruct (String.eqb_spec m1 m2); cbn; [|constructor; congruence]. destruct (Nat.eqb_spec o1 o2); cbn; [|constructor; congruence].
  destruct (Hid d1 d2); constructor; congruence.
Qed.
Lemma distinct_nodup l : NoDup l -> distinct_ids id_eqb l = l.
Proof.
  induction 1 as [|x l N H IH]; [reflexivity|]. cbn. rewrite IH. f_equal. clear IH H.
  induction l as [|y l IH]; [reflexivity|]. cbn. destruct (fullid_eqb_spec x y) as [->|NE]; [destruct N; now left|]. cbn. f_equal.
  apply IH. intros Hx. apply N. now right.
Qed.

(** ** the set of representations *)
Lemma set_of_in l x : In x (set_of rp_eqb l) -> In x l.
Proof. induction l as [|a l IH]; cbn; [auto|]. intros [<-|H]; [auto|]. apply filter_In in H as [H _]. auto. Qed.
Lemma set_of_covers l x : In x l -> exists y, In y (set_of rp_eqb l) /\ rname y = rname x.
Proof.
  induction l as [|a l IH]; cbn; [intros []|]. intros [<-|H]; [exists a; auto|]. destruct (IH H) as [y [Hy E]].
  destruct (rp_eqb a y) eqn:Q. - exists a. split; [now left|]. rewrite <- E. auto.
  - exists y. split; auto. right. apply filter_In. now rewrite Q.
Qed.

Definition named (l : list Rp) : Prop := forall a b, In a l -> In b l -> rname a = rname b -> a = b.
Lemma set_of_same l x : named l -> In x l -> In x (set_of rp_eqb l).
Proof.
  intros N H. destruct (set_of_covers l x H) as [y [Hy E]]. rewrite (N x y); auto. apply set_of_in; auto.
Qed.

(** ** the dict of blocks *)
Section Build.
Variables (gen : Rp -> Rp -> result (sblock At)).
Definition bstep (acc : result (list (key * sblock At))) (p : Rp * Rp) : result (list (key * sblock At)) :=
  rbind acc (fun d =>
      match gen (fst p) (snd p) with
      | Ok sb => Ok (kset key_eqb d (rname (fst p), rname (snd p)) sb)
      | Err x => if String.eqb x "EmptyBasisException" then Ok d else Err x
      end).
Definition pkey (p : Rp * Rp) : key := (rname (fst p), rname (snd p)).
Lemma build_spec L : (forall p q, In p L -> In q L -> pkey p = pkey q -> p = q) -> forall d, fold_left bstep L (Ok []) = Ok d ->
  (forall p, In p L -> kget key_eqb d (pkey p) = match gen (fst p) (snd p) with Ok sb => Some sb | Err _ => None end) /\
  (forall K sb, kget key_eqb d K = Some sb -> exists p, In p L /\ pkey p = K /\ gen (fst p) (snd p) = Ok sb) /\
  NoDup (map fst d) /\
  (forall p x, In p L -> gen (fst p) (snd p) = Err x -> x = "EmptyBasisException"%string).
Proof.
  induction L as [|q L IH] using rev_ind; intros Hi d Hd.
  - cbn in Hd. injection Hd as <-. split; [intros p []|]. split; [intros K sb H; discriminate|]. split; [constructor|intros p x []].
  - rewrite fold_left_app in Hd. cbn [fold_left] in Hd. unfold bstep at 1 in Hd. destruct (rbind_ok _ _ _ Hd) as [d1 [E1 E2]]. clear Hd.
    assert (Hi' : forall p p', In p L -> In p' L -> pkey p = pkey p' -> p = p') by (intros; apply Hi; auto; apply in_or_app; auto).
    destruct (IH Hi' d1 E1) as [A [B [C D]]]. destruct (gen (fst q) (snd q)) as [sb|x] eqn:G.
    + injection E2 as <-. fold (pkey q). split; [|split; [|split]].
      * intros p Hp. rewrite (kget_kset _ key_eqb_spec). destruct (key_eqb_spec (pkey q) (pkey p)) as [E|N].
        { rewrite <- (Hi q p); auto; [now rewrite G|apply in_or_app; right; now left]. }
        apply in_app_or in Hp as [Hp|[->|[]]]; [auto|congruence].
      * intros K sb' H. rewrite (kget_kset _ key_eqb_spec) in H. destruct (key_eqb_spec (pkey q) K) as [E|N].
        { injection H as <-. exists q. split; [apply in_or_app; right; now left|]. auto. }
        destruct (B K sb' H) as [p [P1 [P2 P3]]]. exists p. split; [apply in_or_app; auto|]. auto.
      * apply kset_nodup; auto. apply key_eqb_spec.
      * intros p x Hp Hx. apply in_app_or in Hp as [Hp|[<-|[]]]; [eauto|congruence].
    + destruct (String.eqb_spec x "EmptyBasisException"); [|discriminate]. injection E2 as <-. split; [|split; [|split]]; auto.
      * intros p Hp. apply in_app_or in Hp as [Hp|[<-|[]]]; [auto|]. rewrite G. destruct (kget key_eqb d1 (pkey q)) as [sb|] eqn:Q; [|reflexivity].
        destruct (B _ _ Q) as [p [P1 [P2 P3]]]. rewrite (Hi p q) in P3; auto; [congruence|apply in_or_app; auto|apply in_or_app; right; now left].
      * intros K sb' H. destruct (B K sb' H) as [p [P1 P2]]. exists p. split; [apply in_or_app; auto|auto].
      * intros p y Hp Hy. apply in_app_or in Hp as [Hp|[<-|[]]]; [eauto|congruence].
Qed.
End Build.

(** ** positions of fields *)
Definition pos (l : list Rp) (n : string) : list nat := label_fields n 0 (fields rname rsize l).
Lemma pos_in l n x : In x (pos l n) <-> exists r, nth_error l x = Some r /\ rname r = n.
Proof.
  unfold pos. rewrite label_fields_spec, Nat.sub_0_r. unfold fields. split.
  - intros [_ [m H]]. rewrite nth_error_map in H. destruct (nth_error l x) as [r|]; [|discriminate]. injection H as <- <-. eauto.
  - intros [r [H <-]]. split; [lia|]. exists (rsize r). now rewrite nth_error_map, H.
Qed.
Lemma fields_size l n r : named l -> In r l -> rname r = n -> forall m, In (n, m) (fields rname rsize l) -> m = rsize r.
Proof. intros N Hr <- m Hm. apply in_map_iff in Hm as [r' [E Hr']]. injection E as E1 <-. now rewrite (N r' r). Qed.
Definition roff (l : list Rp) (i : nat) : nat := nsum (map rsize (firstn i l)).
Lemma foff_fields l i : foff (fields rname rsize l) i = roff l i.
Proof. unfold foff, roff, fields. now rewrite firstn_map, map_map. Qed.
Lemma idx_nth l n r q x c : named l -> In r l -> rname r = n -> nth_error (pos l n) q = Some x -> c < rsize r ->
  nth_error (indices rname rsize l n) (q * rsize r + c) = Some (roff l x + c).
Proof. intros N Hr E Hq Hc. unfold indices. rewrite <- foff_fields. apply label_indices_nth; auto. apply (fields_size l n r); auto. Qed.
Lemma idx_length l n r : named l -> In r l -> rname r = n -> length (indices rname rsize l n) = length (pos l n) * rsize r.
Proof. intros N Hr E. apply label_indices_length. apply (fields_size l n r); auto. Qed.
Lemma idx_in l n x : In x (indices rname rsize l n) <-> exists i r c, nth_error l i = Some r /\ rname r = n /\ c < rsize r /\ x = roff l i + c.
Proof.
  unfold indices. rewrite label_indices_in. split.
  - intros [i [m [c [H [Hc ->]]]]]. unfold fields in H. rewrite nth_error_map in H. destruct (nth_error l i) as [r|] eqn:E; [|discriminate].
    injection H as <- <-. exists i, r, c. rewrite foff_fields. auto.
  - intros [i [r [c [H [<- [Hc ->]]]]]]. exists i, (rsize r), c. rewrite foff_fields. unfold fields. rewrite nth_error_map, H. auto.
Qed.
Lemma idx_in_field l n i r c : nth_error l i = Some r -> c < rsize r -> In (roff l i + c) (indices rname rsize l n) -> rname r = n.
Proof.
  intros H Hc Hin. apply idx_in in Hin as [i' [r' [c' [H' [E [Hc' X]]]]]]. rewrite <- !foff_fields in X.
  destruct (foff_inj (fields rname rsize l) i i' (rname r, rsize r) (rname r', rsize r') c c') as [<- _]; auto; unfold fields; rewrite ?nth_error_map, ?H, ?H'; auto. congruence.
Qed.
Lemma idx_sorted l n : StronglySorted lt (indices rname rsize l n).
Proof. apply label_indices_sorted. Qed.

(** basis_ids over the positions *)
Lemma enum_filter_pos_from (c : Rp -> bool) (n : string) l : (forall r, c r = String.eqb (rname r) n) -> forall a,
  map fst (filter (fun p => c (snd p)) (combine (seq a (length l)) l)) = label_fields n a (fields rname rsize l).
Proof.
  intros Hc. induction l as [|r l IH]; intros a; [reflexivity|]. cbn. rewrite Hc. destruct (String.eqb (rname r) n); cbn; now rewrite IH.
Qed.
Lemma enum_filter_pos (c : Rp -> bool) (n : string) l : (forall r, c r = String.eqb (rname r) n) ->
  map fst (filter (fun p => c (snd p)) (enumerate l)) = pos l n.
Proof. intros H. apply enum_filter_pos_from; auto. Qed.
Lemma concat_map_map {A B C} (g : A -> B) (f : B -> list C) l : concat (map f (map g l)) = concat (map (fun a => f (g a)) l).
Proof. now rewrite map_map. Qed.

Definition idof (K : key) (oi : nat * nat) (a : At) : @fullid Id := (fst K, snd oi, snd K, fst oi, at_id a).
Lemma basis_ids_eq blocks ins outs K : basis_ids rname at_id blocks ins outs K =
  match kget key_eqb blocks K with
  | None => []
  | Some sb => concat (map (fun oi => map (fun e => idof K oi (fst e)) (sb_els sb)) (list_prod (pos outs (snd K)) (pos ins (fst K))))
  end.
Proof.
  unfold basis_ids. destruct (kget key_eqb blocks K) as [sb|] eqn:E.
  2:{ transitivity (concat (map (fun _ : nat * Rp => @nil (@fullid Id)) (enumerate outs))).
      - f_equal. apply map_ext. intros po. transitivity (concat (map (fun _ : nat * Rp => @nil (@fullid Id)) (enumerate ins))).
        + f_equal. apply map_ext. intros pi. now destruct (key_eqb _ K).
        + induction (enumerate ins); auto.
      - induction (enumerate outs); auto. }
  set (body := fun o i => map (fun e : At * (nat -> mat) => idof K (o, i) (fst e)) (sb_els sb)).
  transitivity (concat (map (fun po => if String.eqb (rname (snd po)) (snd K) then concat (map (fun i => body (fst po) i) (pos ins (fst K))) else []) (enumerate outs))).
  - f_equal. apply map_ext. intros [o ro]. cbn [fst snd]. destruct (String.eqb_spec (rname ro) (snd K)) as [Eo|No].
    + rewrite <- (enum_filter_pos (fun r => String.eqb (rname r) (fst K)) (fst K) ins) by reflexivity.
      rewrite concat_map_map, <- concat_map_if. f_equal. apply map_ext. intros [i ri]. cbn [fst snd]. unfold key_eqb. cbn [fst snd].
      rewrite Eo, String.eqb_refl, andb_true_r. destruct (String.eqb_spec (rname ri) (fst K)) as [Ei|Ni]; [|reflexivity].
      unfold body, idof. cbn [fst snd]. rewrite Ei. reflexivity.
    + transitivity (concat (map (fun _ : nat * Rp => @nil (@fullid Id)) (enumerate ins))).
      * f_equal. apply map_ext. intros [i ri]. unfold key_eqb. cbn [fst snd]. destruct (String.eqb_spec (rname ro) (snd K)); [congruence|]. now rewrite andb_false_r.
      * induction (enumerate ins); auto.
  - rewrite concat_map_if. rewrite list_prod_concat, concat_map.
    rewrite <- (enum_filter_pos (fun r => String.eqb (rname r) (snd K)) (snd K) outs) by reflexivity. rewrite !map_map.
    rewrite concat_concat. rewrite map_map. f_equal. apply map_ext. intros [o ro]. rewrite !map_map. reflexivity.
Qed.
End Blocks.
