(** Model of [SaveDir], of temporary directories and of the builder of src/server/save.rs. *)

From Verif Require Import Bytes Io Boundary Field Rand Fs Save.

(** ** Removing and creating directories (std::fs and the crate tempfile, by contract) *)

(** [q] is [p] or lies below it. *)
Definition below (p q : path) : bool := if path_eq_dec (firstn (length p) q) p then true else false.

(** One call of [remove_dir_all]: success, or an error after which some of the paths are left. *)
Inductive rmevent := RmOk | RmFail (k : iokind) (kept : path -> bool).

(** [std::fs::remove_dir_all]. *)
Definition remove_dir_all (ev : rmevent) (p : path) (f : fs) : option iokind * fs :=
  match ev with
  | RmFail k kept => (Some k, fun q => if below p q && negb (kept q) then None else f q)
  | RmOk => match f p with
            | Some NDir => (None, fun q => if below p q then None else f q)
            | Some (NFile _) => (Some (KOther 20), f)
            | None => (Some (KOther 2), f)
            end
  end.

(** [std::fs::create_dir] (mkdir(2)): the parent must be a directory. *)
Definition create_dir (p : path) (e : env) : option iokind * env :=
  match removelast p, e_fs e (removelast p) with
  | _ :: _, None => (Some (KOther 2), e)
  | _ :: _, Some (NFile _) => (Some (KOther 20), e)
  | _, _ =>
      match e_fs e p with
      | Some _ => (Some KAlreadyExists, e)
      | None =>
          match e_mkdir e with
          | Some k :: m => (Some k, mkEnv (e_fs e) (e_w e) m (e_open e))
          | None :: m => (None, mkEnv (upd (e_fs e) p (Some NDir)) (e_w e) m (e_open e))
          | [] => (None, set_fs (upd (e_fs e) p (Some NDir)) e)
          end
      end
  end.

(** [tempfile::Builder::new().prefix(prefix).tempdir_in(base)]: a directory named by the prefix and six random
    characters; tried again if the name exists.  (The crate gives up after 2^31 attempts: [tries].) *)
Definition TEMPDIR_RAND : nat := 6.
Fixpoint tempdir_in (tries : nat) (prefix : bytes) (base : path) (g : rng) (e : env) : (path + iokind) * rng * env :=
  match tries with
  | 0 => (inr KAlreadyExists, g, e)
  | S n =>
      let '(name, g1) := random_alphanumeric TEMPDIR_RAND g in
      let p := base ++ [prefix ++ name] in
      match create_dir p e with
      | (None, e1) => (inl p, g1, e1)
      | (Some k, e1) => if iokind_eqb k KAlreadyExists then tempdir_in n prefix base g1 e1 else (inr k, g1, e1)
      end
  end.

(** ** SaveDir *)

(** src/server/save.rs:699-710, [SaveDir].  [Temp p] stands for a [TempDir] that will remove [p] when dropped. *)
Inductive save_dir := Temp (p : path) | Perm (p : path).

(** src/server/save.rs:714-720, [as_path]. *)
Definition as_path (d : save_dir) : path := match d with Temp p => p | Perm p => p end.

(** src/server/save.rs:723-729, [is_temporary]. *)
Definition is_temporary (d : save_dir) : bool := match d with Temp _ => true | Perm _ => false end.

(** src/server/save.rs:733-740, [into_path]; [TempDir::into_path] gives up the removal. *)
Definition into_path (d : save_dir) : path := match d with Temp p => p | Perm p => p end.

(** src/server/save.rs:752-758, [keep]. *)
Definition keep (d : save_dir) : save_dir := match d with Temp p => Perm p | old => old end.

(** src/server/save.rs:768-774, [delete]; [TempDir::close] removes the directory and reports errors. *)
Definition delete (ev : rmevent) (d : save_dir) (f : fs) : option iokind * fs :=
  match d with
  | Temp p => remove_dir_all ev p f
  | Perm p => remove_dir_all ev p f
  end.

(** Dropping a [SaveDir]: the destructor of [TempDir] removes the directory and ignores errors. *)
Definition drop_dir (ev : rmevent) (d : save_dir) (f : fs) : fs :=
  match d with
  | Temp p => snd (remove_dir_all ev p f)
  | Perm _ => f
  end.

(** The methods by reference, and the ways a [SaveDir] ends. *)
Inductive dir_op := OAsPath | OIsTemp | OKeep.
Inductive dir_end := EDrop | EIntoPath | EDelete.
Inductive dir_obs := ObsPath (p : path) | ObsTemp (t : bool) | ObsNone.

Definition dir_step (o : dir_op) (d : save_dir) : dir_obs * save_dir :=
  match o with
  | OAsPath => (ObsPath (as_path d), d)
  | OIsTemp => (ObsTemp (is_temporary d), d)
  | OKeep => (ObsNone, keep d)
  end.

Fixpoint dir_steps (os : list dir_op) (d : save_dir) : list dir_obs * save_dir :=
  match os with
  | [] => ([], d)
  | o :: os' => let '(x, d1) := dir_step o d in
                let '(xs, d2) := dir_steps os' d1 in (x :: xs, d2)
  end.

(** The result of [delete] is returned. *)
Definition dir_finish (w : dir_end) (ev : rmevent) (d : save_dir) (f : fs) : option iokind * fs :=
  match w with
  | EDrop => (None, drop_dir ev d f)
  | EIntoPath => (None, f)
  | EDelete => delete ev d f
  end.

(** The [SaveDir] of an [Entries] (src/server/save.rs:621). *)
Definition dir_of {ML} (en : entries ML) : save_dir :=
  if en_temp ML en then Temp (en_dir ML en) else Perm (en_dir ML en).

(** ** The builder *)

(** src/server/save.rs:165-170, [size_limit] (given [Some n] or [None]). *)
Definition size_limit (l : option N) (s : saver) : saver :=
  mkSaver (match l with Some n => n | None => U64MAX end) (s_count_limit s) (s_threshold s) (s_policy s) (s_opts s).

(** src/server/save.rs:176-180, [mod_open_opts]; [write] is always set, so it is no field of [oopts]. *)
Definition mod_open_opts (f : oopts -> oopts) (s : saver) : saver :=
  mkSaver (s_size_limit s) (s_count_limit s) (s_threshold s) (s_policy s) (f (s_opts s)).

(** src/server/save.rs:187-189, [memory_threshold]. *)
Definition memory_threshold (n : N) (s : saver) : saver :=
  mkSaver (s_size_limit s) (s_count_limit s) n (s_policy s) (s_opts s).

(** src/server/save.rs:198-215, [try_text], [force_text], [ignore_text]. *)
Definition set_policy (p : text_policy) (s : saver) : saver :=
  mkSaver (s_size_limit s) (s_count_limit s) (s_threshold s) p (s_opts s).

(** src/server/save.rs:223-226, [count_limit]. *)
Definition count_limit (l : option N) (s : saver) : saver :=
  mkSaver (s_size_limit s) (match l with Some n => n | None => U32MAX end) (s_threshold s) (s_policy s) (s_opts s).

Section WithMime.
Context (ML : mime_lib).

(** src/server/save.rs:260-262, [with_temp_dir]. *)
Definition with_temp_dir (trim : bool) (s : saver) (dir : path) (fuel : nat) (g : rng) (r : breader) (e : env) :=
  with_entries ML trim s fuel (entries_new ML dir true) g r e.

(** src/server/save.rs:248-253, [temp_with_prefix]; [os_temp] is [std::env::temp_dir()]. *)
Definition temp_with_prefix (trim : bool) (s : saver) (os_temp : path) (prefix : bytes) (tries fuel : nat) (g : rng) (r : breader) (e : env)
  : sres (entries ML) (partial_entries ML) * rng * breader * env :=
  match tempdir_in tries prefix os_temp g e with
  | (inl dir, g1, e1) => with_temp_dir trim s dir fuel g1 r e1
  | (inr k, g1, e1) => (SErr (XDst k), g1, r, e1)
  end.

(** src/server/save.rs:236-238, [temp]. *)
Definition temp (trim : bool) (s : saver) (os_temp : path) (tries fuel : nat) (g : rng) (r : breader) (e : env) :=
  temp_with_prefix trim s os_temp (bs "multipart-rs") tries fuel g r e.

End WithMime.
