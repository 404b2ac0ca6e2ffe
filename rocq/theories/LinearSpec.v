(** * Specification: an order of the requests that explains the answers *)
From Coq Require Import List NArith.
From Verif Require Import Spec Base Graph GraphSpec Text Format Store StoreSpec Clients.
Import ListNotations.

(** What happened at one instant: an empty graph was made where there was none (or found to be there), a whole
    request was appended, a request was turned down because there was no graph, or a reader looked. *)
Inductive event :=
| Made
| Stored (cs : list graph_command)
| Refused (cs : list graph_command)
| Saw (r : outcome (result graph)).
(** One order of events, executed by a single machine that holds a list of commands, or nothing yet. *)
Inductive legal : option (list graph_command) -> list event -> option (list graph_command) -> Prop :=
| l_nil log : legal log [] log
| l_made log es : legal log es None -> legal log (es ++ [Made]) (Some [])
| l_made_again log es l : legal log es (Some l) -> legal log (es ++ [Made]) (Some l)
| l_stored log es l cs : legal log es (Some l) -> legal log (es ++ [Stored cs]) (Some (l ++ cs))
| l_refused log es cs : legal log es None -> legal log (es ++ [Refused cs]) None
| l_saw log es l g : legal log es (Some l) -> a_same (shown g) (a_run l) -> legal log (es ++ [Saw (Done (Ok g))]) (Some l)
| l_saw_none log es m : legal log es None -> legal log (es ++ [Saw (Done (Err m))]) None.

(** The event is one of the request. *)
Inductive made_by : request -> event -> Prop :=
| m_setup : made_by SetUp Made
| m_update chunks cs : made_by (Update chunks cs) (Stored cs)
| m_refused chunks cs : made_by (Update chunks cs) (Refused cs)
| m_ask r : made_by Ask (Saw r)
| m_ask_slowly takes fuel r : made_by (AskSlowly takes fuel) (Saw r).
(** The answer is one of the event: gc-init succeeds, a reader gets the graph it saw, a refused update fails.  The status of
    an update that was stored says nothing. *)
Inductive answered : event -> answer -> Prop :=
| d_made : answered Made (AMade (IoOk tt))
| d_stored cs r : answered (Stored cs) (AStored r)
| d_refused cs : answered (Refused cs) (AStored IoErr)
| d_saw r : answered (Saw r) (ARead r).
Inductive fits : list request -> list event -> list answer -> Prop :=
| f_nil : fits [] [] []
| f_snoc os es ans o e a : fits os es ans -> made_by o e -> answered e a -> fits (os ++ [o]) (es ++ [e]) (ans ++ [a]).

Definition events (i : nat) (L : list (nat * event)) : list event :=
  map snd (filter (fun x => Nat.eqb (fst x) i) L).

(** The user's finished requests have one event each, in order, and a request in progress has at most one. *)
Definition client_fits (os : list request) (es : list event) (c : client) : Prop :=
  match current c with
  | None => exists begun, os = begun ++ todo c /\ fits begun es (answers c)
  | Some _ => exists begun o es1 extra, os = begun ++ o :: todo c /\ es = es1 ++ extra /\ fits begun es1 (answers c) /\
      (extra = [] \/ exists e, extra = [e] /\ made_by o e)
  end.

(** The commands file reads as the machine's list, or there is none yet. *)
Definition agrees (nd : N -> bool) (e : entry) (log : option (list graph_command)) : Prop :=
  match log with
  | Some l => exists c, e = File c /\ gcmd_read_as_commands nd c = Done (Ok l)
  | None => e = Absent
  end.
(** [L] explains a state reached from [log]: the events are a run of the single machine, the
    file now reads as the machine's list, and the events of every user are their requests and answers. *)
Definition explained (nd : N -> bool) (log : option (list graph_command)) (oss : list (list request)) (x : fs * list client)
    (L : list (nat * event)) : Prop :=
  (exists log', legal log (map snd L) log' /\ agrees nd (commands_entry (fst x)) log') /\
  length (snd x) = length oss /\ Forall (fun e => (fst e < length oss)%nat) L /\
  forall i os c, nth_error oss i = Some os -> nth_error (snd x) i = Some c -> client_fits os (events i L) c.

(** The [k]-th event of user [i] has position [p]. *)
Definition position (i k p : nat) (L : list (nat * event)) : Prop :=
  exists l1 e l2, L = l1 ++ (i, e) :: l2 /\ length l1 = p /\ length (events i l1) = k.
