(** The methods with which users configure the crate: [Intercept] (src/server/iron.rs), [SaveBuilder] (src/server/save.rs) and
    the lazy [Multipart] (src/client/lazy.rs), as sequences of calls. *)

From Verif Require Import Bytes Io Boundary Field Rand Fs Save Savedir Iron Client Lazy.

(** ** Intercept *)

(** src/server/iron.rs:103-120: the four setters ([LContinue] is [LimitBehavior::Continue], iron.rs:210-226). *)
Inductive isetting := ITempPath (p : path) | ISize (n : N) | ICount (n : N) | ILimit (continue : bool).

Definition iset (ic : intercept) (s : isetting) : intercept :=
  match s with
  | ITempPath p => mkIntercept (Some p) (ic_size ic) (ic_count ic) (ic_continue ic)
  | ISize n => mkIntercept (ic_temp ic) n (ic_count ic) (ic_continue ic)
  | ICount n => mkIntercept (ic_temp ic) (ic_size ic) n (ic_continue ic)
  | ILimit c => mkIntercept (ic_temp ic) (ic_size ic) (ic_count ic) c
  end.

(** [Intercept::default().…] (iron.rs:67, 189-198). *)
Definition configured (ss : list isetting) : intercept := fold_left iset ss intercept_default.

(** ** SaveBuilder *)

(** src/server/save.rs:165-226: the setters. *)
Inductive bsetting := BSize (l : option N) | BOpts (f : oopts -> oopts) | BThreshold (n : N) | BPolicy (p : text_policy) | BCount (l : option N).

Definition bset (s : saver) (b : bsetting) : saver :=
  match b with
  | BSize l => size_limit l s
  | BOpts f => mod_open_opts f s
  | BThreshold n => memory_threshold n s
  | BPolicy p => set_policy p s
  | BCount l => count_limit l s
  end.

(** [multipart.save().…] (src/server/mod.rs:153-155, save.rs:138-156). *)
Definition built (bs : list bsetting) : saver := fold_left bset bs saver_new.

(** ** The lazy client *)

Section WithMime.
Context (ML : mime_lib) (octet : mime ML).

(** src/client/lazy.rs:140-192: the calls that add a field. *)
Inductive ladd :=
| AddText (name text : bytes)
| AddFile (name : bytes) (p : path) (o : iokind + (iokind + N) * transport)
| AddStream (name : bytes) (src : transport) (fname : option bytes) (ct : option (mime ML)).

Definition add1 (l : lazy_form (mime ML)) (a : ladd) : lazy_form (mime ML) :=
  match a with
  | AddText n t => add_text ML n t l
  | AddFile n p o => add_file ML n p o l
  | AddStream n src f ct => add_stream ML octet n src f ct l
  end.

(** [Multipart::new()] and the calls on it. *)
Definition formed (l : list ladd) : lazy_form (mime ML) := fold_left add1 l (lazy_new ML).

End WithMime.
