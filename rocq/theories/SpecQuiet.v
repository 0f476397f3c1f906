(** Specification vocabulary for C83: options that only concern exports. *)
From Verif Require Import Prelude Json Parser Driver SpecDriver.

(** The options agree in what the numbers depend on. *)
Definition same_numbers (o o' : driver_options) : Prop :=
  o_order o' = o_order o /\ o_multipolarExpansionOrder o' = o_multipolarExpansionOrder o.
(** The same call, with any folder. *)
Inductive same_call : dop -> dop -> Prop :=
| sc_same c : same_call c c
| sc_folder f f' : same_call (CallSetFolder f) (CallSetFolder f').
(** The contents of the JSON files among the files written; ParaView and VisIt exports. *)
Definition json_contents {T} (w : list (event T)) : list (json T) :=
  flat_map (fun e => match e with EvJson _ j => [j] | _ => [] end) w.
Definition is_paraview {T} (e : event T) : bool := match e with EvParaView _ _ => true | _ => false end.
Definition is_visit {T} (e : event T) : bool := match e with EvVisIt _ _ => true | _ => false end.
(** Two constructions end alike: both succeed or both end with the same error. *)
Definition end_alike {A} (x x' : outcome A) : Prop :=
  match x, x' with
  | Ok _, Ok _ => True
  | Throw e, Throw e' => e = e'
  | Undef u, Undef u' => u = u'
  | _, _ => False
  end.
