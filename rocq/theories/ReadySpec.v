(** * Which topological order (for C165)
    Nothing here depends on the model. *)
From Coq Require Import List NArith Bool.
Import ListNotations.
Local Open Scope N_scope.

Section Ready.
  (** The vertices in the order in which they are gone through, and the edges in the order in which they were added. *)
  Variables (vs : list N) (es : list (N * N)).
  Definition into (v : N) : list (N * N) := filter (fun e => N.eqb (snd e) v) es.
  Definition out_of (v : N) : list (N * N) := filter (fun e => N.eqb (fst e) v) es.
  Definition among (l : list (N * N)) (e : N * N) : bool := existsb (fun x => N.eqb (fst x) (fst e) && N.eqb (snd x) (snd e)) l.
  (** The edges of [todo] are crossed off after those of [gone]; a vertex is ready when the last edge into it is. *)
  Fixpoint readied (gone todo : list (N * N)) : list N :=
    match todo with
    | [] => []
    | e :: t =>
      let gone' := gone ++ [e] in
      if forallb (among gone') (into (snd e)) then snd e :: readied gone' t else readied gone' t
    end.
  (** All vertices ready when those of [done] have been listed, in the order in which they became so: at first those without
      entering edges. *)
  Definition ready (done : list N) : list N :=
    filter (fun v => match into v with [] => true | _ => false end) vs ++ readied [] (flat_map out_of done).
  (** The vertex listed next is the one ready for the longest time. *)
  Definition ready_order (out : list N) : Prop :=
    (forall p v r, out = p ++ v :: r -> exists t, ready p = p ++ v :: t) /\ ready out = out.
End Ready.
