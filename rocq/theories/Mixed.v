(** Requests with temporary directories, through the Iron middleware and without it, at once on one disk. *)

From Verif Require Import Bytes Io Boundary Field Rand Fs Save Savedir Iron Together Lives Visits.

(** A process may have handlers that call [temp] or [temp_with_prefix] of [SaveBuilder] (src/server/save.rs:236-253, see [Lives])
    beside a chain with the middleware (src/server/iron.rs:122-139 and 200-207, see [Visits]). *)
Inductive request := ByHand (l : life) | Through (v : visit).

Section WithMime.
Context (ML : mime_lib).

Definition answer : Type := tale ML + reply ML.

(** One request on its own. *)
Definition run_request (m : request) (e : env) : answer * env :=
  match m with
  | ByHand l => let '(a, e1) := run_life ML l e in (inl a, e1)
  | Through v => let '(a, e1) := run_visit ML v e in (inr a, e1)
  end.

(** The request as a program. *)
Definition prequest (wf : nat) (m : request) : prog answer :=
  match m with
  | ByHand l => pbind (plife ML wf l) (fun a => PRet (inl a))
  | Through v => pbind (pvisit ML wf v) (fun a => PRet (inr a))
  end.

(** All requests start on the disk [f]. *)
Definition busy (f : fs) (ms : list (request * env)) : pool answer :=
  (f, map (fun me => (prequest (S (length (e_w (snd me)))) (fst me), snd me)) ms).

End WithMime.
