(** Model of what SMASH does with files that several runs may share or that may be cut
    short: lock files (src/filelock.cc), renamed output files (src/file.cc) and the cache
    of resonance integrals (src/isoparticletype.cc).  Processes interleave arbitrarily and
    can die between any two steps. *)
From Coq Require Import ZArith String Ascii List Bool Lia.
From Verif Require Import Base Bytes TabModel ShaModel.
Import ListNotations.

(** * Lock files *)

(** filelock.h:55-58, data members (the path is the same for all objects considered) *)
Record lock_obj := LockObj { acquired : bool }.
(** filelock.cc:20-21: constructor *)
Definition lock_new : lock_obj := LockObj false.

(** filelock.cc:23-39: acquire on the lock file [file] (true: it exists).  [os_error]: the
    open fails for a reason other than existence; [close_error]: close fails.  Result,
    lock file afterwards, object afterwards. *)
Definition acquire (os_error close_error : bool) (file : bool) (o : lock_obj)
  : res bool * bool * lock_obj :=
  if acquired o then (Throw E_runtime, file, o)
  else if file || os_error then (Ok false, file, o)
  else if close_error then (Throw E_runtime, true, LockObj true)
  else (Ok true, true, LockObj true).

(** filelock.cc:41-45: destructor; lock file afterwards *)
Definition lock_delete (file : bool) (o : lock_obj) : bool := if acquired o then false else file.

(** Everything that can happen to the objects on one path, in any process.  Objects are
    numbered.  [LCrash] is the death of the owning process; [LCopy] the implicitly
    declared copy constructor. *)
Inductive lev := LNew (i : nat) | LAcquire (i : nat) (os_error close_error : bool)
               | LDelete (i : nat) | LCrash (i : nat) | LCopy (i j : nat).
(** what an observer sees *)
Inductive lobs := ONone | OAcquired (i : nat) | ORefused (i : nat) | OThrew (i : nat)
                | OEnd (i : nat) (removed : bool).

Record lsys := LSys { lfile : bool; lobjs : nat -> option lock_obj; lused : list nat }.
Definition lset (s : lsys) (f : bool) (i : nat) (o : option lock_obj) : lsys :=
  LSys f (fun j => if Nat.eqb j i then o else lobjs s j) (lused s).

(** one event; None: not possible in this state *)
Definition lstep (s : lsys) (e : lev) : option (lsys * lobs) :=
  match e with
  | LNew i =>
    if existsb (Nat.eqb i) (lused s) then None
    else Some (LSys (lfile s) (lobjs (lset s (lfile s) i (Some lock_new))) (i :: lused s), ONone)
  | LAcquire i oe ce =>
    match lobjs s i with
    | None => None
    | Some o =>
      let '(r, f, o') := acquire oe ce (lfile s) o in
      Some (lset s f i (Some o'),
            match r with Ok true => OAcquired i | Ok false => ORefused i | _ => OThrew i end)
    end
  | LDelete i =>
    match lobjs s i with
    | None => None
    | Some o => let f := lock_delete (lfile s) o in
                Some (lset s f i None, OEnd i (lfile s && negb f))
    end
  | LCrash i =>
    match lobjs s i with None => None | Some _ => Some (lset s (lfile s) i None, OEnd i false) end
  | LCopy i j =>
    match lobjs s i with
    | None => None
    | Some o => if existsb (Nat.eqb j) (lused s) then None
                else Some (LSys (lfile s) (lobjs (lset s (lfile s) j (Some o))) (j :: lused s), ONone)
    end
  end.

Fixpoint lrun (s : lsys) (es : list lev) : option (lsys * list lobs) :=
  match es with
  | [] => Some (s, [])
  | e :: t => match lstep s e with
              | None => None
              | Some (s', o) => match lrun s' t with
                                | None => None
                                | Some (s'', os) => Some (s'', o :: os)
                                end
              end
  end.

(** * Renamed output files *)

(** A RenamingFilePtr and the two files it deals with.  [pending] is the stdio buffer,
    [sent] everything passed to fwrite so far. *)
Inductive phase := NotYet | Opened | Closed | Renamed | Kept.
Record rsys := RSys { fin : option (list Z); unf : option (list Z); pending : list Z;
                      sent : list Z; ph : phase }.

(** [ROpen]: file.cc:20-26 with mode "w"/"wb"; [RWrite d]: fwrite through get();
    [RFlush n]: stdio hands n buffered bytes to the system; [RLose n]: the system refuses
    them (disk full) - nothing in file.cc looks at the error; [RClose]: fclose of
    file.cc:31, which flushes the rest (all of it, or only n bytes if the disk is full);
    [RRename uncaught]: file.cc:33-36, [uncaught] = number of exceptions in flight now,
    compared with the one recorded at construction (here 0). *)
Inductive rev := ROpen | RWrite (d : list Z) | RFlush (n : nat) | RLose (n : nat)
               | RClose (lost : nat) | RRename (uncaught : nat).

Definition rstep (s : rsys) (e : rev) : option rsys :=
  match e, ph s with
  | ROpen, NotYet => Some (RSys (fin s) (Some []) [] [] Opened)
  | RWrite d, Opened => Some (RSys (fin s) (unf s) (pending s ++ d) (sent s ++ d) Opened)
  | RFlush n, Opened =>
    Some (RSys (fin s) (option_map (fun u => u ++ firstn n (pending s)) (unf s))
               (skipn n (pending s)) (sent s) Opened)
  | RLose n, Opened => Some (RSys (fin s) (unf s) (skipn n (pending s)) (sent s) Opened)
  | RClose lost, Opened =>
    Some (RSys (fin s)
               (option_map (fun u => u ++ firstn (List.length (pending s) - lost) (pending s)) (unf s))
               [] (sent s) Closed)
  | RRename uncaught, Closed =>
    if Nat.eqb uncaught 0 then Some (RSys (unf s) None [] (sent s) Renamed)
    else Some (RSys (fin s) (unf s) [] (sent s) Kept)
  | _, _ => None
  end.
Fixpoint rrun (s : rsys) (es : list rev) : option rsys :=
  match es with
  | [] => Some s
  | e :: t => match rstep s e with None => None | Some s' => rrun s' t end
  end.

(** file.cc:24-31 when the file cannot be opened: fopen's null pointer is kept and passed
    to fclose, which is undefined *)
Definition renaming_file_lifetime (fopen_ok : bool) : res unit :=
  if fopen_ok then Ok tt else UB UB_oob.

(** * The cache of integrals *)

(** isoparticletype.h:79-87: the first ' of a name is replaced *)
Fixpoint filtered_prime (s : string) : string :=
  match s with
  | EmptyString => EmptyString
  | String a t => if Ascii.eqb a "'"%char then append "_prime" t else String a (filtered_prime t)
  end.
(** isoparticletype.cc:221-225, relative to the directory *)
Definition tab_path (k : string * string) : string :=
  append (append (filtered_prime (fst k)) (filtered_prime (snd k))) ".bin".

(** library.cc:64-69: what the hash is computed from *)
Definition config_hash (garbage : list Z) (version particles decaymodes : list Z) : res (list Z) :=
  c <- update (reset (Ctx 0 [] 0 garbage)) version ;;
  c <- update c particles ;;
  c <- update c decaymodes ;;
  Ok (fst (finalize c)).

Definition fs := string -> option (list Z).
Definition fset (f : fs) (p : string) (b : option (list Z)) : fs :=
  fun q => if String.eqb q p then b else f q.

(** One run doing tabulate_integrals (isoparticletype.cc:270-307).  [PRun dir_ok todo
    done]: dir_ok is false if the lock could not be had (or no directory was given), then
    nothing is read or written; todo are the integrals still to do, as pairs of multiplet
    names.  [PWrite k rest todo done]: the file of k was truncated by opening it and
    [rest] is not written yet. *)
Inductive proc :=
| PStart
| PRun (dir_ok : bool) (todo : list (string * string)) (done : list ((string * string) * tab Z))
| PWrite (k : string * string) (bytes : list Z) (todo : list (string * string)) (done : list ((string * string) * tab Z))
| PDone (done : list ((string * string) * tab Z))
| PFailed
| PDead.

Definition results (p : proc) : list ((string * string) * tab Z) :=
  match p with PRun _ _ d | PWrite _ _ _ d | PDone d => d | _ => [] end.

(** lock: None or the run that created the lock file *)
Record csys := CSys { files : fs; lock : option nat; procs : nat -> proc }.
Definition pset (s : csys) (f : fs) (l : option nat) (i : nat) (p : proc) : csys :=
  CSys f l (fun j => if Nat.eqb j i then p else procs s j).

Section Cache.
(** configurations (version, particles, decay modes) and what is computed from them *)
Variable config : Type.
Variable hash : config -> list Z.
Variable table : config -> (string * string) -> tab Z.
Variable keys : config -> list (string * string).
Variable cfg : nat -> config.   (* configuration of each run *)
Variable max : Z.               (* largest vector that can be allocated *)
(** faults that may occur beside crashes: somebody deletes a lock file left behind; the
    system refuses writes (disk full) *)
Variable stale_removed disk_full : bool.

(** isoparticletype.cc:236-239: the tabulation found on disk, if any *)
Definition cached (g : garbage) (i : nat) (s : csys) (k : string * string) : res (tab Z) :=
  match files s (tab_path k) with
  | None => Ok (Tab [] 0 0 0)
  | Some b => from_file max g b (hash (cfg i))
  end.

Inductive cstep : csys -> csys -> Prop :=
(* isoparticletype.cc:275-276: try to lock; may also fail for other reasons *)
| s_lock s i : procs s i = PStart -> lock s = None ->
    cstep s (pset s (files s) (Some i) i (PRun true (keys (cfg i)) []))
| s_nolock s i : procs s i = PStart ->
    cstep s (pset s (files s) (lock s) i (PRun false (keys (cfg i)) []))
(* isoparticletype.cc:236-246: use the file *)
| s_hit s i g k todo done t : procs s i = PRun true (k :: todo) done ->
    garbage_ok g -> cached g i s k = Ok t -> is_empty t = false ->
    cstep s (pset s (files s) (lock s) i (PRun true todo (done ++ [(k, t)])))
(* an exception from reading the file: the lock is released by unwinding *)
| s_throw s i g k todo done e : procs s i = PRun true (k :: todo) done ->
    garbage_ok g -> cached g i s k = Throw e ->
    cstep s (pset s (files s) None i PFailed)
(* isoparticletype.cc:247-262: no usable file; compute, open the file (truncating it) *)
| s_miss s i g k todo done t : procs s i = PRun true (k :: todo) done ->
    garbage_ok g -> cached g i s k = Ok t -> is_empty t = true ->
    cstep s (pset s (fset (files s) (tab_path k) (Some [])) (lock s) i
                  (PWrite k (write (table (cfg i) k) (hash (cfg i))) todo done))
(* isoparticletype.cc:263: bytes reach the file *)
| s_write s i n k bytes todo done old : procs s i = PWrite k bytes todo done ->
    files s (tab_path k) = Some old ->
    cstep s (pset s (fset (files s) (tab_path k) (Some (old ++ firstn n bytes))) (lock s) i
                  (PWrite k (skipn n bytes) todo done))
| s_lose s i n k bytes todo done : disk_full = true -> procs s i = PWrite k bytes todo done ->
    cstep s (pset s (files s) (lock s) i (PWrite k (skipn n bytes) todo done))
(* isoparticletype.cc:264-266: the file is closed, the computed integral is used *)
| s_close s i k todo done : procs s i = PWrite k [] todo done ->
    cstep s (pset s (files s) (lock s) i (PRun true todo (done ++ [(k, table (cfg i) k)])))
(* isoparticletype.cc:247-260 without a directory *)
| s_compute s i k todo done : procs s i = PRun false (k :: todo) done ->
    cstep s (pset s (files s) (lock s) i (PRun false todo (done ++ [(k, table (cfg i) k)])))
(* isoparticletype.cc:307: the lock goes out of scope *)
| s_release s i b done : procs s i = PRun b [] done ->
    cstep s (pset s (files s) (if b then None else lock s) i (PDone done))
| s_crash s i : cstep s (pset s (files s) (lock s) i PDead)
| s_unlock s : stale_removed = true -> cstep s (CSys (files s) None (procs s)).

Inductive creach : csys -> csys -> Prop :=
| creach_refl s : creach s s
| creach_step s s' s'' : creach s s' -> cstep s' s'' -> creach s s''.
End Cache.

(** * Which table is used for a pair of resonances *)

(** isoparticletype.cc:302-307: keys of rhoR_tabulations, with the pair of multiplets the
    table was computed for *)
Definition rhoR_keys : list (string * (string * string)) :=
  [("ρ"%string, ("ρ"%string, "ρ"%string)); ("h₁(1170)"%string, ("ρ"%string, "h₁(1170)"%string))].
(** isoparticletype.cc:283-300: DeltaR_tabulations has an entry for each baryon resonance *)
Definition deltaR_key (baryon_resonances : list string) (n : string) : option (string * string) :=
  if existsb (String.eqb n) baryon_resonances then Some ("Δ"%string, n) else None.
Definition at_ {A} (o : option A) : res A := match o with Some x => Ok x | None => Throw E_out_of_range end.
Fixpoint find_key {A} (l : list (string * A)) (n : string) : option A :=
  match l with [] => None | (k, x) :: t => if String.eqb k n then Some x else find_key t n end.
(** isoparticletype.cc:341-368: get_integral_RR, reduced to the pair whose table is
    consulted.  (Antiparticle multiplets are filed under their own name with the same
    table and are left out; [is_Delta] of the first state is "name is Δ" here.) *)
Definition pair_used (baryon_resonances : list string) (a b : string) : res (string * string) :=
  if String.eqb b "Δ" then at_ (deltaR_key baryon_resonances a)
  else if String.eqb b "ρ" then at_ (find_key rhoR_keys a)
  else if String.eqb b "h₁(1170)" then at_ (find_key rhoR_keys a)
  else Throw E_runtime.
