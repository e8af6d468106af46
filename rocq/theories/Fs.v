(** The file system, as far as src/server/save.rs uses it (std::fs, by contract).

    A path is a list of components; [] is the root (or the current directory).  A file system maps paths
    to nodes.  Failures of the operating system are scheduled: each [mkdir], [open] and [write] call
    consumes one event.  Nothing else changes the file system while the code runs
    ([Together] has several saves at once). *)

From Verif Require Import Bytes Io.

Definition path := list bytes.

Definition path_eq_dec : forall p q : path, {p = q} + {p <> q} := list_eq_dec (list_eq_dec N.eq_dec).

Inductive node := NDir | NFile (c : bytes).
Definition fs := path -> option node.

Definition upd (f : fs) (p : path) (n : option node) : fs :=
  fun q => if path_eq_dec q p then n else f q.

(** One [Write::write] call: how many bytes it takes at most, or its error. *)
Inductive wevent := WAccept (n : nat) | WFail (k : iokind).

(** The environment: file system, scheduled results of [write], [mkdir] and [open] ([Some k] is an error;
    when a schedule is used up calls succeed and writes take everything). *)
Record env := mkEnv {
  e_fs : fs;
  e_w : list wevent;
  e_mkdir : list (option iokind);
  e_open : list (option iokind);
}.

Definition set_fs (f : fs) (e : env) : env := mkEnv f (e_w e) (e_mkdir e) (e_open e).

(** [std::fs::create_dir_all] on [todo] below the existing directory [done]; a file in the way is EEXIST, or ENOTDIR if it is not the last
    component. *)
Fixpoint mkdirs (done todo : path) (e : env) : option iokind * env :=
  match todo with
  | [] => (None, e)
  | c :: t =>
      let p := done ++ [c] in
      match e_fs e p with
      | Some NDir => mkdirs p t e
      | Some (NFile _) => (Some (match t with [] => KAlreadyExists | _ => KOther 20 end), e)
      | None =>
          match e_mkdir e with
          | Some k :: m => (Some k, mkEnv (e_fs e) (e_w e) m (e_open e))
          | None :: m => mkdirs p t (mkEnv (upd (e_fs e) p (Some NDir)) (e_w e) m (e_open e))
          | [] => mkdirs p t (set_fs (upd (e_fs e) p (Some NDir)) e)
          end
      end
  end.

(** [std::fs::OpenOptions] with [write(true)]. *)
Record oopts := mkOpts { o_create_new : bool; o_create : bool; o_truncate : bool; o_append : bool }.

(** An open file: where the next write goes ([append]: at the end). *)
Record handle := mkHandle { h_path : path; h_pos : nat; h_append : bool }.

(** [OpenOptions::open] (open(2) with O_CREAT|O_EXCL for [create_new]); truncating and appending together is EINVAL without a system
    call. *)
Definition open_file (o : oopts) (p : path) (e : env) : (handle + iokind) * env :=
  let e1 := mkEnv (e_fs e) (e_w e) (e_mkdir e) (tl (e_open e)) in
  if o_append o && o_truncate o && negb (o_create_new o) then (inr (KOther 22), e)
  else match e_open e with
  | Some k :: _ => (inr k, e1)
  | _ =>
      match p, e_fs e p with
      | [], _ => (inr (KOther 21), e1)
      | _, Some NDir => (inr (KOther 21), e1)
      | _, Some (NFile c) =>
          if o_create_new o then (inr KAlreadyExists, e1)
          else (inl (mkHandle p 0 (o_append o)), if o_truncate o then set_fs (upd (e_fs e) p (Some (NFile []))) e1 else e1)
      | _, None =>
          if o_create_new o || o_create o
          then (inl (mkHandle p 0 (o_append o)), set_fs (upd (e_fs e) p (Some (NFile []))) e1)
          else (inr (KOther 2), e1)
      end
  end.

(** Store [d] at offset [pos] of [c]. *)
Definition put (c : bytes) (pos : nat) (d : bytes) : bytes := firstn pos c ++ d ++ skipn (pos + length d) c.

(** The effect of a write that took [d]. *)
Definition file_put (h : handle) (d : bytes) (e : env) : handle * env :=
  match e_fs e (h_path h) with
  | Some (NFile c) =>
      let pos := if h_append h then length c else h_pos h in
      (mkHandle (h_path h) (pos + length d) (h_append h),
       set_fs (upd (e_fs e) (h_path h) (Some (NFile (put c pos d)))) e)
  | _ => (h, e)
  end.
