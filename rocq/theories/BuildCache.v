(** Model of the build cache: names and paths (src/module.rs:168-206, src/project.rs:397-500, 1365-1387), certificate
    stores and manifests (src/certificate.rs:2250-2282, src/manifest.rs:116-199) and src/build_cache.rs.
    A path is the list of its components, all of them ordinary names; texts are byte strings.  Hash maps are
    association lists; a certificate is its line of JSON and a hash its hex form. *)
From Coq Require Import String Ascii List Arith Bool.
Import ListNotations.
Local Open Scope string_scope.

(** ** Maps *)
Section Map.
Context {A B : Type} (eqb : A -> A -> bool).
Fixpoint mget (k : A) (m : list (A * B)) : option B :=
  match m with [] => None | (a, b) :: r => if eqb a k then Some b else mget k r end.
(** [HashMap::insert] *)
Fixpoint mput (k : A) (v : B) (m : list (A * B)) : list (A * B) :=
  match m with [] => [(k, v)] | (a, b) :: r => if eqb a k then (a, v) :: r else (a, b) :: mput k v r end.
Definition mremove (k : A) (m : list (A * B)) : list (A * B) := filter (fun e => negb (eqb (fst e) k)) m.
(** [entry(k).or_insert(v)] *)
Definition mput_new (k : A) (v : B) (m : list (A * B)) : list (A * B) :=
  match mget k m with Some _ => m | None => mput k v m end.
Definition mhas (k : A) (m : list (A * B)) : bool := match mget k m with Some _ => true | None => false end.
End Map.

(** ** Paths *)
Definition path := list string.
Fixpoint path_eqb (p q : path) : bool :=
  match p, q with [], [] => true | a :: p, b :: q => String.eqb a b && path_eqb p q | _, _ => false end.
(** below a directory *)
Definition sub (d : path) (l : list string) : path := app d l.
Definition parent (p : path) : option path := match p with [] => None | _ => Some (removelast p) end.
Definition file_name (p : path) : option string := match p with [] => None | _ => Some (last p "") end.
Fixpoint strip_prefix (base p : path) : option path :=
  match base, p with
  | [], _ => Some p
  | a :: base, b :: p => if String.eqb a b then strip_prefix base p else None
  | _ :: _, [] => None
  end.
(** the part before and after the last dot *)
Fixpoint rdot (s : string) : option (string * string) :=
  match s with
  | "" => None
  | String c r => match rdot r with
                  | Some (a, b) => Some (String c a, b)
                  | None => if Ascii.eqb c "." then Some ("", r) else None
                  end
  end.
Definition split_name (s : string) : string * option string :=
  match rdot s with Some ("", _) => (s, None) | Some (a, b) => (a, Some b) | None => (s, None) end.
Definition file_stem (p : path) : option string := option_map (fun n => fst (split_name n)) (file_name p).
Definition extension (p : path) : option string := match file_name p with Some n => snd (split_name n) | None => None end.
Definition with_file_name (p : path) (n : string) : path := sub (removelast p) [n].
Definition with_extension (p : path) (e : string) : path :=
  match file_stem p with Some s => with_file_name p (s ++ "." ++ e) | None => p end.
Fixpoint join (sep : string) (l : list string) : string :=
  match l with [] => "" | [a] => a | a :: r => a ++ sep ++ join sep r end.
(** [str::split] with a character *)
Fixpoint split (c : ascii) (s : string) : list string :=
  match s with
  | "" => [""]
  | String d r => if Ascii.eqb d c then "" :: split c r else
                  match split c r with a :: l => String d a :: l | [] => [String d ""] end
  end.
(** [strip_suffix(".ac")] *)
Fixpoint strip_ac (s : string) : option string :=
  if String.eqb s ".ac" then Some "" else match s with "" => None | String c r => option_map (String c) (strip_ac r) end.
Definition opt_eqb (a b : option string) : bool :=
  match a, b with Some x, Some y => String.eqb x y | None, None => true | _, _ => false end.

(** ** Descriptors: module.rs:155-206 *)
Inductive descriptor := Anonymous | Name (parts : list string) | File (p : path).
Fixpoint strs_eqb (p q : list string) : bool :=
  match p, q with [], [] => true | a :: p, b :: q => String.eqb a b && strs_eqb p q | _, _ => false end.
Definition desc_eqb (d e : descriptor) : bool :=
  match d, e with
  | Anonymous, Anonymous => true
  | Name p, Name q | File p, File q => strs_eqb p q
  | _, _ => false
  end.
Definition name (s : string) : descriptor := Name (split "." s).
Definition display (d : descriptor) : string :=
  match d with Anonymous => "<anonymous>" | Name parts => join "." parts | File p => join "/" p end.
(** project.rs:1365-1387 [check_valid_module_part] *)
Definition lower (c : ascii) : bool := let n := nat_of_ascii c in Nat.leb 97 n && Nat.leb n 122.
Definition word_char (c : ascii) : bool :=
  let n := nat_of_ascii c in
  lower c || (Nat.leb 65 n && Nat.leb n 90) || (Nat.leb 48 n && Nat.leb n 57) || Ascii.eqb c "_".
Definition valid_part (s : string) : bool :=
  match s with "" => false | String c _ => lower c && forallb word_char (list_ascii_of_string s) end.

Section Layout.
Context (exists_ : path -> bool) (src : path).
(** project.rs:456-492 [path_from_module_name] (errors as [None]) *)
Definition module_path (parts : list string) : option path :=
  if forallb valid_part parts then
    let dir := sub src (removelast parts) in
    let file := sub dir [last parts "" ++ ".ac"] in
    let interface := sub dir [last parts ""; "interface.ac"] in
    if exists_ interface then if exists_ file then None else Some interface else Some file
  else None.
(** 439-454 [path_from_descriptor] *)
Definition path_from_descriptor (d : descriptor) : option path :=
  match d with
  | Name parts => module_path (split "." (join "." parts))
  | File p => Some p
  | Anonymous => None
  end.
(** 500-509 [nearest_package_root_for_path] = build_cache.rs:171-180; [up] counts the directories between the
    path and the source directory *)
Fixpoint nearest_root (up : nat) (current : path) : option path :=
  match up with
  | 0 => None
  | S up => if path_eqb current src then None else
            if exists_ (sub current ["interface.ac"]) then Some current else
            match parent current with Some c => nearest_root up c | None => None end
  end.
Definition package_root (p : path) : option path :=
  match parent p with Some c => nearest_root (S (length p)) c | None => None end.
(** 397-437 [descriptor_from_path] *)
Fixpoint parts_from (is_interface : bool) (l : list string) : option (list string) :=
  match l with
  | [] => Some []
  | [n] =>
    match strip_ac n with
    | None => None
    | Some part =>
      if String.eqb n "interface.ac" && is_interface then Some [] else if valid_part part then Some [part] else None
    end
  | part :: r => if valid_part part then option_map (cons part) (parts_from is_interface r) else None
  end.
Definition descriptor_from_path (p : path) : option descriptor :=
  match strip_prefix src p with
  | None => Some (File p)
  | Some rel =>
    let is_interface := match package_root p with Some r => path_eqb p (sub r ["interface.ac"]) | None => false end in
    option_map Name (parts_from is_interface rel)
  end.

(** build_cache.rs:145-169 [source_path_for_descriptor] *)
Definition source_path (d : descriptor) : option path :=
  match d with
  | Name [] => None
  | Name parts =>
    let dir := sub src (removelast parts) in
    let interface := sub dir [last parts ""; "interface.ac"] in
    Some (if exists_ interface then interface else sub dir [last parts "" ++ ".ac"])
  | _ => None
  end.
(** 123-143 [descriptor_for_source_path] *)
Definition descriptor_for_source_path (p : path) : option descriptor :=
  if existsb (String.eqb "certs") p then None else
  match strip_prefix src p with
  | None => None
  | Some rel =>
    if opt_eqb (extension p) (Some "ac") then
      match rel with
      | [] => None
      | _ =>
        let front := removelast rel in
        let n := last rel "" in
        let parts := if String.eqb n "interface.ac" then Some front else option_map (fun s => sub front [s]) (strip_ac n) in
        match parts with Some [] => None | Some parts => Some (Name parts) | None => None end
      end
    else None
  end.
(** 104-108, 110-118 *)
Definition cert_path_for_source (p : path) : option path :=
  match parent p, file_stem p with Some d, Some s => Some (sub d ["certs"; s ++ ".jsonl"]) | _, _ => None end.
Definition source_from_cert_path (p : path) : option path :=
  match parent p with
  | None => None
  | Some cd =>
    if opt_eqb (file_name cd) (Some "certs") then
      match parent cd, file_stem p with Some d, Some s => Some (sub d [s ++ ".ac"]) | _, _ => None end
    else None
  end.
(** 120-122 *)
Definition manifest_path (root : path) : path := sub root ["certs"; "manifest.json"].
(** 182-190, 192-195 *)
Definition root_for_source (p : path) : option path :=
  match strip_prefix src p with
  | None => None
  | Some _ => Some (match package_root p with Some r => r | None => src end)
  end.
(** 197-203 [is_package_interface_path] *)
Definition is_interface_path (p : path) : bool :=
  opt_eqb (file_name p) (Some "interface.ac") &&
  match package_root p with Some r => path_eqb p (sub r ["interface.ac"]) | None => false end.
(** 205-210 *)
Definition implementation_key (root p : path) : option string := option_map (join "/") (strip_prefix root p).
(** 212-223 *)
Definition package_name (root : path) : option string :=
  match strip_prefix src root with Some [] => None | Some rel => Some (join "." rel) | None => None end.
(** 225-233 [dependency_key_for_descriptor] *)
Definition dependency_key (d : descriptor) : option string :=
  match source_path d with
  | None => None
  | Some p => match root_for_source p with
              | None => None
              | Some r => if path_eqb r src then Some (display d) else package_name r
              end
  end.
(** 427-446 [cert_path_for_descriptor] *)
Definition cert_path (d : descriptor) : option path :=
  match d with
  | Name _ => match source_path d with
              | None => None
              | Some p => if is_interface_path p then None else cert_path_for_source p
              end
  | File p => if opt_eqb (extension p) (Some "ac") then Some (with_extension p "jsonl") else None
  | Anonymous => None
  end.
End Layout.

(** ** Manifests: manifest.rs:116-176 *)
Record manifest := Manifest {
  m_interface : option string;
  m_implementation : list (string * string);
  m_dependencies : list (string * string)
}.
Definition no_manifest : manifest := Manifest None [] [].
Definition or_else {A} (a b : option A) : option A := match a with Some _ => a | None => b end.
Definition put_missing (new old : list (string * string)) : list (string * string) :=
  fold_left (fun m e => mput_new String.eqb (fst e) (snd e) m) old new.
Definition put_all {A B} (eqb : A -> A -> bool) (m upd : list (A * B)) : list (A * B) :=
  fold_left (fun m e => mput eqb (fst e) (snd e) m) upd m.
(** [merge_missing_from] *)
Definition merge_missing (m old : manifest) : manifest :=
  Manifest (or_else (m_interface m) (m_interface old)) (put_missing (m_implementation m) (m_implementation old))
           (put_missing (m_dependencies m) (m_dependencies old)).
(** build_cache.rs:350-361, per package *)
Definition merge_over (m upd : manifest) : manifest :=
  Manifest (or_else (m_interface upd) (m_interface m)) (put_all String.eqb (m_implementation m) (m_implementation upd))
           (put_all String.eqb (m_dependencies m) (m_dependencies upd)).
Definition manifest_is_empty (m : manifest) : bool :=
  match m with Manifest None [] [] => true | _ => false end.

(** ** The cache: build_cache.rs:18-29 *)
Definition store := list string.
Record cache := Cache { certs : list (descriptor * store); manifests : list (path * manifest) }.
Definition no_cache : cache := Cache [] [].
Definition root_manifest (c : cache) (r : path) : manifest :=
  match mget path_eqb r (manifests c) with Some m => m | None => no_manifest end.

Section Cache.
Context (exists_ : path -> bool) (src : path).
(** 235-275 [record_package_state] *)
Definition record_state (c : cache) (d : descriptor) (hash : string) (deps : list (descriptor * string)) : cache :=
  match source_path exists_ src d with
  | None => c
  | Some p =>
    match root_for_source exists_ src p with
    | None => c
    | Some root =>
      let outside e := match source_path exists_ src (fst e) with
                       | Some q => match root_for_source exists_ src q with Some r => negb (path_eqb r root) | None => true end
                       | None => true
                       end in
      let entries := flat_map (fun e => if outside e then match dependency_key exists_ src (fst e) with Some k => [(k, snd e)] | None => [] end else []) deps in
      let m := root_manifest c root in
      let m := if is_interface_path exists_ src p then Manifest (Some hash) (m_implementation m) (m_dependencies m) else
               match implementation_key root p with
               | Some k => Manifest (m_interface m) (mput String.eqb k hash (m_implementation m)) (m_dependencies m)
               | None => m
               end in
      let m := Manifest (m_interface m) (m_implementation m) (put_all String.eqb (m_dependencies m) entries) in
      Cache (certs c) (mput path_eqb root m (manifests c))
    end
  end.
(** 277-289 *)
Definition insert (c : cache) (d : descriptor) (s : store) (hash : option string) (deps : list (descriptor * string)) : cache :=
  let c := match hash with Some h => record_state c d h deps | None => c end in
  Cache (mput desc_eqb d s (certs c)) (manifests c).
(** 366-388 [manifest_matches] *)
Definition manifest_matches (c : cache) (d : descriptor) (hash : string) : bool :=
  match source_path exists_ src d with
  | None => false
  | Some p =>
    match root_for_source exists_ src p with
    | None => false
    | Some root =>
      match mget path_eqb root (manifests c) with
      | None => false
      | Some m =>
        if is_interface_path exists_ src p then opt_eqb (m_interface m) (Some hash) else
        match implementation_key root p with
        | Some k => opt_eqb (mget String.eqb k (m_implementation m)) (Some hash)
        | None => false
        end
      end
    end
  end.
End Cache.
(** 330-337 [merge_missing_manifests_from] *)
Definition merge_missing_manifests (c old : cache) : cache :=
  Cache (certs c) (fold_left (fun ms e => mput path_eqb (fst e) (merge_missing (match mget path_eqb (fst e) ms with Some m => m | None => no_manifest end) (snd e)) ms)
                             (manifests old) (manifests c)).
(** 320-328 [merge_certificates_from], and 491-495 *)
Definition merge_missing_certs (c old : cache) : cache :=
  Cache (fold_left (fun m e => mput_new desc_eqb (fst e) (snd e) m) (certs old) (certs c)) (manifests c).
Definition merge_certificates (c old : cache) : cache := merge_missing_manifests (merge_missing_certs c old) old.
(** 343-362 [merge_updates_from] *)
Definition merge_updates (c other : cache) : cache :=
  Cache (put_all desc_eqb (certs c) (certs other))
        (fold_left (fun ms e => mput path_eqb (fst e) (merge_over (match mget path_eqb (fst e) ms with Some m => m | None => no_manifest end) (snd e)) ms)
                   (manifests other) (manifests c)).

(** ** Files *)
Definition fs := list (path * string).
Inductive op :=
| Create (p : path)                (* [File::create]: the file is there and empty *)
| Append (p : path) (s : string)
| Sync (p : path)
| Rename (p q : path)
| Remove (p : path).
Definition exec1 (f : fs) (o : op) : fs :=
  match o with
  | Create p => mput path_eqb p "" f
  | Append p s => match mget path_eqb p f with Some t => mput path_eqb p (t ++ s) f | None => f end
  | Sync _ => f
  | Rename p q => match mget path_eqb p f with Some t => mput path_eqb q t (mremove path_eqb p f) | None => f end
  | Remove p => mremove path_eqb p f
  end.
Definition exec (f : fs) (l : list op) : fs := fold_left exec1 l f.
(** Where the process may stop: between two operations or inside a write; an error that ends the save is such a stop too. *)
Inductive stops : list op -> list op -> Prop :=
| stop_here l : stops l []
| stop_write p s t l : stops (Append p (s ++ t) :: l) [Append p s]
| stop_later o l m : stops l m -> stops (o :: l) (o :: m).

Definition newline : string := String "010" "".
(** certificate.rs:2269-2282 [CertificateStore::save]; the buffer only changes how the bytes are cut into writes *)
Definition save_store (p : path) (s : store) : list op := Create p :: map (fun c => Append p (c ++ newline)) s.
(** certificate.rs:2252-2266 [CertificateStore::load]; [readable] tells whether a line parses as a certificate *)
Definition strip_cr (s : string) : string :=
  match s with "" => "" | _ => if String.eqb (substring (String.length s - 1) 1 s) (String "013" "") then substring 0 (String.length s - 1) s else s end.
(** [BufRead::lines]: no last line when the text ends in a newline *)
Definition text_lines (s : string) : list string :=
  let l := split "010" s in
  let l := if String.eqb (last l "") "" then removelast l else l in map strip_cr l.
Definition space (c : ascii) : bool := let n := nat_of_ascii c in Nat.eqb n 32 || (Nat.leb 9 n && Nat.leb n 13).
Definition blank (s : string) : bool := forallb space (list_ascii_of_string s).
Definition load_store (readable : string -> bool) (s : string) : option store :=
  let l := filter (fun x => negb (blank x)) (text_lines s) in
  if forallb readable l then Some l else None.
(** manifest.rs:178-192 [PackageManifest::save]; [json] prints a manifest *)
Definition temp_path (p : path) : path := with_file_name p ".manifest.json.tmp".
Definition save_manifest (json : manifest -> string) (p : path) (m : manifest) : list op :=
  [Create (temp_path p); Append (temp_path p) (json m); Append (temp_path p) newline; Sync (temp_path p); Rename (temp_path p) p].
(** build_cache.rs:448-498 [save_merging_old]: what is written ([create_dir_all] is left out), and the cache afterwards *)
Definition save_ops (json : manifest -> string) (f : fs) (src : path) (c old : cache) (preserve : bool) : list op :=
  let c := if preserve then merge_missing_manifests c old else c in
  (flat_map (fun e => match cert_path (fun p => mhas path_eqb p f) src (fst e) with Some p => save_store p (snd e) | None => [] end) (certs c) ++
   flat_map (fun e => if manifest_is_empty (snd e) then [] else save_manifest json (manifest_path (fst e)) (snd e)) (manifests c) ++
   (if preserve then [] else
    flat_map (fun e => if mhas path_eqb (fst e) (manifests c) then [] else [Remove (manifest_path (fst e))]) (manifests old)))%list.
Definition saved_cache (c old : cache) (preserve : bool) : cache :=
  merge_missing_certs (if preserve then merge_missing_manifests c old else c) old.
(** 52-102 [load]; [parse] reads a manifest *)
Definition load (readable : string -> bool) (parse : string -> option manifest) (f : fs) (src : path) : cache :=
  let step c e :=
    let '(p, s) := e : path * string in
    if opt_eqb (file_name p) (Some "manifest.json") && match parent p with Some d => opt_eqb (file_name d) (Some "certs") | None => false end then
      match parent p with
      | Some d => match parent d, parse s with
                  | Some r, Some m => Cache (certs c) (mput path_eqb r m (manifests c))
                  | _, _ => c
                  end
      | None => c
      end
    else if opt_eqb (extension p) (Some "jsonl") then
      match source_from_cert_path p with
      | Some q =>
        if mhas path_eqb q f then
          match descriptor_for_source_path src q, load_store readable s with
          | Some d, Some l => Cache (mput desc_eqb d l (certs c)) (manifests c)
          | _, _ => c
          end
        else c
      | None => c
      end
    else c in
  fold_left step (filter (fun e => match strip_prefix src (fst e) with Some _ => true | None => false end) f) no_cache.

(** 390-425 [dependency_manifests_needing_update]; two maps are equal when they have the same entries.  The result is a set of
    manifest paths, sorted there; here it is the list of packages. *)
Definition same_map (a b : list (string * string)) : bool :=
  forallb (fun e => opt_eqb (mget String.eqb (fst e) b) (Some (snd e))) a && forallb (fun e => opt_eqb (mget String.eqb (fst e) a) (Some (snd e))) b.
Definition needing_update (c old : cache) (preserve : bool) : list path :=
  flat_map (fun e =>
    let old_m := mget path_eqb (fst e) (manifests old) in
    let expected := if preserve then put_all String.eqb (match old_m with Some m => m_dependencies m | None => [] end) (m_dependencies (snd e))
                    else m_dependencies (snd e) in
    let fine := match old_m with Some m => same_map (m_dependencies m) expected | None => match expected with [] => true | _ => false end end in
    if fine then [] else [fst e]) (manifests c).
