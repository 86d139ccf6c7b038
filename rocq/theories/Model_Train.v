(** Model of training: the calls that change the buffers of a network, and the loop of examples/model.ipynb:477-493. *)
From Coq Require Import Reals ZArith String List Bool.
From Verif Require Import Base Model_Groups Model_Rep Model_FieldType Model_Utils Model_Modules Model_GSpace Model_Conv Model_ConvT Model_Fieldwise Model_BatchNorm Model_Net.
Import ListNotations.
Open Scope R_scope.

Section Call.
Context {G B : Type} (argmax : list R -> nat) (cob_id : rep G -> bool).
Notation tensor := (arr (B -> vec) * ctype G)%type.
Variables (junk : nat -> B * (nat * nat) -> R) (junkn : nat -> nat -> R) (bt : batch B).
(** the new state of a module that works on numbered entries ([on_entries], Model_Net) *)
Definition state_of {S} (fwd : nat -> gtensor (space G) (rep G) (nat -> R) -> result (gtensor (space G) (rep G) (nat -> R) * S)) (x : tensor) : result S :=
  rbind (fwd (bt_n bt * (a_h (fst x) * a_w (fst x)))%nat (MkGT (flat_channels bt (ct_size (snd x)) (fst x)) (snd x))) (fun y => Ok (snd y)).
(** the layer after forward(x): the batch normalisations update their buffers (norm.py:146-254, induced_norm.py:159-269, inner.py:114-149,
    gnorm.py:174-271); the other layers keep their state *)
Definition layer_next (l : layer G) (x : tensor) : result (layer G) :=
  match l with
  | LNormBatchNorm tr m => rbind (state_of (fun n => nbn_forward space_eqb rep_eqb Nat.eqb (fun s => py_str s) (fun s => s) (fun s => s) tr n m) x) (fun m' => Ok (LNormBatchNorm tr m'))
  | LInducedBatchNorm tr m => rbind (state_of (fun n => nbn_forward space_eqb rep_eqb pair_eqb pair_str fst snd tr n m) x) (fun m' => Ok (LInducedBatchNorm tr m'))
  | LInnerBatchNorm tr m => rbind (state_of (fun n => inner_forward space_eqb rep_eqb tr n junkn m) x) (fun m' => Ok (LInnerBatchNorm tr m'))
  | LGNormBatchNorm tr m => rbind (state_of (fun n => gnorm_forward space_eqb rep_eqb cob_id tr n junkn m) x) (fun m' => Ok (LGNormBatchNorm tr m'))
  | _ => Ok l
  end.
(** sequential_module.py:79-80: the loop over the modules; the output, and the modules afterwards.  (The assertions 77 and 82 on the types of
    input and output, Model_Modules, are repeated by the first and last modules.) *)
Fixpoint call_all (ls : list (layer G)) (x : tensor) : result (tensor * list (layer G)) :=
  match ls with
  | [] => Ok (x, [])
  | l :: ls' =>
    rbind (layer_forward argmax junk junkn cob_id bt l x) (fun y =>
    rbind (layer_next l x) (fun l1 =>
    rbind (call_all ls' y) (fun r => Ok (fst r, l1 :: snd r))))
  end.
End Call.

(** One step of the loop: the batch with its numbering, the images, the loss (a function of the output: loss_function(., t) with the labels t
    of the batch), and what torch.empty finds in memory *)
Record iteration (G : Type) : Type := MkIt {
  it_B : Type; it_bt : batch it_B; it_x : arr (it_B -> vec) * ctype G; it_loss : arr (it_B -> vec) * ctype G -> R;
  it_junk : nat -> it_B * (nat * nat) -> R; it_junkn : nat -> nat -> R }.
Arguments MkIt {G} _ _ _ _ _ _.
Arguments it_B {G} _. Arguments it_bt {G} _. Arguments it_x {G} _. Arguments it_loss {G} _ _. Arguments it_junk {G} _ _ _. Arguments it_junkn {G} _ _ _.

Section Train.
Context {G St : Type} (argmax : list R -> nat) (cob_id : rep G -> bool).
(** the loss of the batch as a function of the network, i.e. of the values of its parameters *)
Definition batch_loss (it : iteration G) (net : list (layer G)) : result R :=
  rbind (call_all argmax cob_id (it_junk it) (it_junkn it) (it_bt it) net (it_x it)) (fun r => Ok (it_loss it (fst r))).
(** model.ipynb:487-493: y = model(x); loss = loss_function(y, t); loss.backward(); optimizer.step().  [opt]: backward and step together, as a
    function of the state of the optimiser, the network before and after the forward pass (which changes buffers), and the loss as a function of
    the network; it returns the new state of the optimiser and the network with new parameters.  (Simplification: autograd is a function of
    the loss as a function of the parameters, and not of the way in which torch computed it.) *)
Variable opt : St -> list (layer G) -> list (layer G) -> (list (layer G) -> result R) -> St * list (layer G).
Definition train_step (s : St) (net : list (layer G)) (it : iteration G) : result (St * list (layer G)) :=
  rbind (call_all argmax cob_id (it_junk it) (it_junkn it) (it_bt it) net (it_x it)) (fun r =>
  Ok (opt s net (snd r) (batch_loss it))).
(** model.ipynb:477-493: the loop over epochs and batches *)
Fixpoint train (s : St) (net : list (layer G)) (its : list (iteration G)) : result (St * list (layer G)) :=
  match its with
  | [] => Ok (s, net)
  | it :: its' => rbind (train_step s net it) (fun r => train (fst r) (snd r) its')
  end.
End Train.
