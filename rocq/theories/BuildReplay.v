(** Model of how the certificates of a build are left for the next one: [trim_unused_certificates] (src/builder.rs 3527-3538), which
    [finish_module_work_build] and [build] call at the end.  The rest is BuildModule.v. *)
From Coq Require Import List Arith Bool.
Import ListNotations.
From Verif Require Import LoweredModule BuildModule.

(** builder.rs 3527-3538 for one module: the number of used certificates is the one that its verification recorded, and [s] the
    status at the end of the build *)
Definition trim_unused {Cert} (s : status) (r : list Cert * nat * bool) : list Cert :=
  let '(certs, used, _) := r in if is_good s then firstn used certs else certs.
