(** Model of the certificate worklist (src/certificate.rs:2240-2360).  A certificate is a goal name and a
    proof of any type.  The hash map from goal names to indexes is a list of entries; the order in which it
    is iterated is a parameter. *)
From Coq Require Import String List Arith Bool.
Import ListNotations.

Section Worklist.
Context {proof : Type}.

(** certificate.rs [Certificate]; 2246-2248 [CertificateStore] *)
Record cert := Cert { goal : string; body : proof }.
Definition store := list cert.
Definition gmap := list (string * list nat).
(** 2292-2300 [CertificateWorklist] *)
Record worklist := WL { certs : store; indexes_for_goal : gmap }.

(** [HashMap::get], [HashMap::remove] *)
Fixpoint find_goal (g : string) (m : gmap) : option (list nat) :=
  match m with [] => None | (h, l) :: r => if String.eqb h g then Some l else find_goal g r end.
Fixpoint drop_goal (g : string) (m : gmap) : gmap :=
  match m with [] => [] | (h, l) :: r => if String.eqb h g then r else (h, l) :: drop_goal g r end.
(** [entry(g).or_insert_with(Vec::new).push(i)] *)
Fixpoint push_index (g : string) (i : nat) (m : gmap) : gmap :=
  match m with
  | [] => [(g, [i])]
  | (h, l) :: r => if String.eqb h g then (h, l ++ [i]) :: r else (h, l) :: push_index g i r
  end.
(** [get_mut] and an update in place *)
Fixpoint set_goal (g : string) (l' : list nat) (m : gmap) : gmap :=
  match m with [] => [] | (h, l) :: r => if String.eqb h g then (h, l') :: r else (h, l) :: set_goal g l' r end.

(** 2304-2319 [new] *)
Fixpoint index_from (i : nat) (s : store) (m : gmap) : gmap :=
  match s with [] => m | c :: r => index_from (S i) r (push_index (goal c) i m) end.
Definition wl_new (s : store) : worklist := WL s (index_from 0 s []).
(** 2322-2325 [get_indexes] *)
Definition get_indexes (w : worklist) (g : string) : list nat :=
  match find_goal g (indexes_for_goal w) with Some l => l | None => [] end.
(** 2328-2330 [get_cert] *)
Definition get_cert (w : worklist) (i : nat) : option cert := nth_error (certs w) i.
(** 2333-2340 [remove] *)
Definition remove (w : worklist) (g : string) (i : nat) : worklist :=
  match find_goal g (indexes_for_goal w) with
  | None => w
  | Some l =>
    let l' := filter (fun j => negb (Nat.eqb j i)) l in
    WL (certs w) (match l' with [] => drop_goal g (indexes_for_goal w) | _ => set_goal g l' (indexes_for_goal w) end)
  end.
(** 2343-2345 [unused] *)
Definition unused (w : worklist) : nat := list_sum (map (fun e => length (snd e)) (indexes_for_goal w)).
(** 2348-2353 [iter_unused]; [ord] is the order in which the map is iterated *)
Fixpoint present (s : store) (l : list nat) : list cert :=
  match l with [] => [] | i :: r => match nth_error s i with Some c => c :: present s r | None => present s r end end.
Definition iter_unused (ord : gmap -> gmap) (w : worklist) : list cert :=
  present (certs w) (flat_map snd (ord (indexes_for_goal w))).
(** 2284-2289 [CertificateStore::append] *)
Definition append (ord : gmap -> gmap) (s : store) (w : worklist) : store := s ++ iter_unused ord w.
End Worklist.
Arguments cert : clear implicits.
Arguments store : clear implicits.
Arguments worklist : clear implicits.
