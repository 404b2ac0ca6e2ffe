(** * Model of core/src/attribute/mapping.rs and attribute_command.rs *)
From Coq Require Import List NArith Bool.
From Verif Require Import Base.
Import ListNotations.

Set Implicit Arguments.

Section Mapping.
  Variables K V : Type.
  Variable eqb : K -> K -> bool.

  (** mapping.rs l.23-26: the map; the constant name is left out. *)
  Definition mapping := list (K * V).
  (** mapping.rs l.29-34 [new], and [no_vertex_mapping]/[no_edge_mapping] l.12-19 *)
  Definition map_new : mapping := [].
  (** mapping.rs l.40-43 [add] *)
  Definition map_add (m : mapping) (k : K) (v : V) : mapping * bool :=
    (hm_insert eqb k v m, true).
  (** mapping.rs l.45-47 [remove] *)
  Definition map_remove (m : mapping) (k : K) : mapping * bool :=
    (hm_remove eqb k m, hm_mem eqb k m).
  (** mapping.rs l.51-53 [as_closure] *)
  Definition as_closure (m : mapping) (k : K) : option V := hm_get eqb k m.
  (** mapping.rs l.55-57 [as_closure_with_defaults] *)
  Definition as_closure_with_defaults (m : mapping) (d : V) (k : K) : V :=
    match hm_get eqb k m with Some v => v | None => d end.
End Mapping.

(** attribute_command.rs l.5-10 *)
Inductive attr_command (T : Type) :=
| AddVertexAttr (v : N) (t : T)
| RemoveVertexAttr (v : N)
| AddEdgeAttr (v1 v2 : N) (t : T)
| RemoveEdgeAttr (v1 v2 : N).
Arguments RemoveVertexAttr {T} v.
Arguments RemoveEdgeAttr {T} v1 v2.

Section Commands.
  Variable T : Type.

  (** attribute_command.rs l.15-25 *)
  Definition apply_vertex_attr (c : attr_command T) (m : mapping N T) : mapping N T * bool :=
    match c with
    | AddVertexAttr v t => map_add N.eqb m v t
    | RemoveVertexAttr v => map_remove N.eqb m v
    | _ => (m, false)
    end.
  (** attribute_command.rs l.27-34 *)
  Definition apply_vertex_attrs (cs : list (attr_command T)) (m : mapping N T) : mapping N T :=
    fold_left (fun m c => fst (apply_vertex_attr c m)) cs m.
  (** attribute_command.rs l.38-48 *)
  Definition apply_edge_attr (c : attr_command T) (m : mapping edge T) : mapping edge T * bool :=
    match c with
    | AddEdgeAttr a b t => map_add edge_eqb m (a, b) t
    | RemoveEdgeAttr a b => map_remove edge_eqb m (a, b)
    | _ => (m, false)
    end.
  (** attribute_command.rs l.50-57 *)
  Definition apply_edge_attrs (cs : list (attr_command T)) (m : mapping edge T) : mapping edge T :=
    fold_left (fun m c => fst (apply_edge_attr c m)) cs m.
End Commands.
