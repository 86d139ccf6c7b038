(** Model of e2cnn/nn/modules/nonlinearities/induced_gated1.py: InducedGatedNonLinearity1. *)
From Coq Require Import Reals ZArith String List Bool.
From Verif Require Import Base Model_Groups Model_Rep Model_FieldType Model_Utils Model_Modules Model_Fieldwise.
Import ListNotations.
Open Scope R_scope.

Section IGated.
Context {GS G X : Type} (fits : GS -> rep G -> bool) (gs_eqb : GS -> GS -> bool) (rp_eqb : rep G -> rep G -> bool).
Notation ftype := (ftype GS (rep G)).
Notation chan := (X -> R).
Notation gtensor := (gtensor GS (rep G) chan).
Notation type_eqb := (ft_eqb gs_eqb rp_eqb).

(** induced_gated1.py:107-115: the size of the sub-fields of one field; [q]: quotient_size *)
Fixpoint gsub_loop (size : nat) (q : option nat) (acc : option nat) (nls : list string) : result (option nat) :=
  match nls with
  | [] => Ok acc
  | nl :: nls' =>
    if starts_with "induced_gated" nl then
      match acc with
      | Some _ => Err "AssertionError"
      | None => rbind (py_int (last_part "" nl)) (fun s =>
                if (s =? 0)%nat then Err "ZeroDivisionError"
                else assert_ (size mod s =? 0)%nat
                    (assert_ (match q with Some q => size / s =? q | None => false end)%nat (gsub_loop size q (Some s) nls')))
      end
    else gsub_loop size q acc nls'
  end.
(** induced_gated1.py:104-115: the dict subfield_sizes, keyed by the names of the representations *)
Fixpoint subfield_sizes (q : option nat) (l : list (string * rep G)) (d : list (string * nat)) : result (list (string * nat)) :=
  match l with
  | [] => Ok d
  | (g, r) :: l' =>
    if String.eqb g GATED then
      rbind (gsub_loop (rp_size r) q None (rp_nonlin r)) (fun o =>
      subfield_sizes q l' (match o with Some s => kset String.eqb d (rp_name r) s | None => d end))
    else subfield_sizes q l' d
  end.
(** induced_gated1.py:96-102 *)
Fixpoint quotient_loop (q : option nat) (l : list (string * rep G)) : result (option nat) :=
  match l with
  | [] => Ok q
  | (g, r) :: l' =>
    if String.eqb g GATES then
      match q with None => quotient_loop (Some (rp_size r)) l' | Some n => assert_ (rp_size r =? n)%nat (quotient_loop q l') end
    else quotient_loop q l'
  end.
(** induced_gated1.py:76-87 *)
Definition ig_check (p : string * rep G) : result unit :=
  if String.eqb (fst p) GATES then assert_ (supports "induced_gate" (snd p)) (Ok tt)
  else if String.eqb (fst p) GATED then (if existsb (starts_with "induced_gated") (rp_nonlin (snd p)) then Ok tt else Err "ValueError"%string)
  else Err "ValueError"%string.
(** induced_gated1.py:133-136: the type of a field; a tuple (size, sub-field size) is represented by its text *)
Definition ig_id (d : list (string * nat)) (r : rep G) : result (nat * nat) :=
  match kget String.eqb d (rp_name r) with Some s => Ok (rp_size r, s) | None => Err "KeyError"%string end.
Definition ig_label (d : list (string * nat)) (p : string * rep G) : result (string * nat) :=
  if String.eqb (fst p) GATES then Ok (GATES, rp_size (snd p))
  else rbind (ig_id d (snd p)) (fun i => Ok (pair_str i, rp_size (snd p))).

Record igated1 : Type := MkIG {
  ig_in : ftype; ig_out : ftype; ig_drop : bool; ig_q : option nat; ig_fs : list (string * nat); ig_order : list (nat * nat);
  ig_cin : list (string * chan_set); ig_cout : list (string * chan_set); ig_bias : list R }.
(** induced_gated1.py:26-187 [__init__]; [bias]: the random initial bias *)
Definition igated1_make (t : ftype) (gates : option (list string)) (drop : bool) (bias : nat -> R) : result igated1 :=
  rbind (gate_labels gates (length (ft_reps t))) (fun gs =>
  let gr := combine gs (ft_reps t) in
  rbind (rmap ig_check gr) (fun _ =>
  let ngates := length (filter (String.eqb GATES) gs) in
  let ngated := length (filter (String.eqb GATED) gs) in
  assert_ (ngates =? ngated)%nat
  (rbind (quotient_loop None gr) (fun q =>
   rbind (subfield_sizes q gr []) (fun d =>
   rbind (if drop then index_select fits t (map Z.of_nat (gated_fields gs)) else Ok t) (fun out =>
   rbind (rmap (ig_label d) gr) (fun fs =>
   rbind (group_index fs) (fun cin =>
   rbind (out_index drop (map fst fs) (keep_fields drop fs)) (fun cout =>
   rbind (match kget String.eqb cin GATES with Some _ => Ok tt | None => Err "KeyError"%string end) (fun _ =>
   rbind (rmap (fun p => ig_id d (snd p)) (filter (fun p => negb (String.eqb (fst p) GATES)) gr)) (fun ids =>
   Ok (MkIG t out drop q fs (id_order ids) cin cout (map bias (seq 0 ngates)))))))))))))).

(** induced_gated1.py:219: torch.sigmoid(gates.view(b, -1, quotient_size, h, w) - self.bias) *)
Definition open_blocks (bl : list (list chan)) (bias : list R) : result (list (list chan)) :=
  rbind (zip_eq bl bias) (fun z => Ok (map (fun gb => map (fun c : chan => fun p => sigmoid (c p - snd gb)) (fst gb)) z)).
(** induced_gated1.py:189-264 [forward] *)
Definition igated1_forward (junk : nat -> chan) (m : igated1) (x : gtensor) : result gtensor :=
  assert_ (type_eqb (gt_type x) (ig_in m))
  (rbind (attr_of (ig_cin m) GATES) (fun gi =>
   rbind (gather gi (gt_data x)) (fun graw =>
   rbind (match ig_q m with Some q => view_fields q graw | None => Err "TypeError"%string end) (fun bl =>
   rbind (open_blocks bl (ig_bias m)) (fun g =>
   rbind (if ig_drop m then Ok (empty junk (ft_chans (ig_out m))) else scatter gi (empty junk (ft_chans (ig_out m))) (concat g)) (fun out0 =>
   rbind (group_loop pair_str (ig_cin m) (ig_cout m) (fun i => count_label (pair_str i) (ig_fs m))
            (fun i next fm => gate_group (snd i) (concat (sub_list g next (next + count_label (pair_str i) (ig_fs m)))) fm)
            (gt_data x) (ig_order m) 0 out0) (fun d =>
   mk_gt rp_size d (ig_out m)))))))).
End IGated.
