(** Model of the crate's own checks: the round trip tests of src/local_test.rs and the fuzz target
    fuzz/fuzzers/server_basic.rs; and the tool src/bin/read_file.rs. *)

From Verif Require Import Bytes Io Boundary Utf8 Httparse Field Inplace Rand Fs Client Lazy Mock Readers Results.

(** ** The requests *)

(** The body of a [ServerRequest] as a transport: what its reads (src/mock.rs:155-168) return until the data
    is used up.  [room k] is one less than the size of the buffer of the [k]-th read, which is never empty. *)
Fixpoint sreq_chunks (fuel : nat) (room : nat -> nat) (k : nat) (q : sreq) : transport :=
  match fuel with
  | 0 => []
  | S fuel' =>
      match sr_data q with
      | [] => []
      | _ => let '(b, q1) := sreq_read (S (room k)) q in Chunk b :: sreq_chunks fuel' room (S k) q1
      end
  end.

(** Every read takes at least one byte: [length (sr_data q)] reads are enough. *)
Definition sreq_body (room : nat -> nat) (q : sreq) : transport := sreq_chunks (length (sr_data q)) room 0 q.

(** src/mock.rs:144-152, [ServerRequest::new]. *)
Definition sreq_new (data boundary : bytes) (g : rng) : sreq := mkSReq data boundary None g.

(** src/server/mod.rs:77-85, [from_request], on a [ServerRequest]: it has a boundary (mock.rs:174). *)
Definition sreq_reader (room : nat -> nat) (q : sreq) : option breader :=
  option_map (with_body (sreq_body room q)) (sreq_multipart_boundary q).

(** ** src/local_test.rs: the data *)

Section WithMime.
Context (ML : mime_lib) (mime_eq_dec : forall a b : mime ML, {a = b} + {a <> b}).

(** src/local_test.rs:148-153, 204-205, [FileEntry] with the derived equality. *)
Record file_entry := mkFE { fe_ctype : mime ML; fe_fname : option bytes; fe_data : bytes }.

Definition bytes_eq_dec : forall a b : bytes, {a = b} + {a <> b} := list_eq_dec N.eq_dec.

Definition fe_eq_dec (a b : file_entry) : {a = b} + {a <> b}.
Proof. decide equality; [apply bytes_eq_dec|decide equality; apply bytes_eq_dec]. Defined.

(** [HashMap<String, HashSet<V>>]: keys with their sets, in the order of iteration. *)
Definition setmap (V : Type) : Type := list (bytes * list V).

(** src/local_test.rs:66-70, [TestFields]. *)
Record test_fields := mkTF { tf_texts : setmap bytes; tf_files : setmap file_entry }.

(** [HashSet::insert]: equal values are kept once.  [collect] into a set inserts in turn. *)
Definition set_insert {V} (eqv : forall a b : V, {a = b} + {a <> b}) (s : list V) (x : V) : list V :=
  if in_dec eqv x s then s else s ++ [x].

(** [HashMap::insert]: the value of an equal key is replaced. *)
Fixpoint map_insert {V} (m : setmap V) (k : bytes) (s : list V) : setmap V :=
  match m with
  | [] => [(k, s)]
  | (k', s') :: m' => if beq k' k then (k', s) :: m' else (k', s') :: map_insert m' k s
  end.

(** [Rng::gen_range(lo..=hi)]. *)
Definition gen_between (lo hi : nat) (g : rng) : nat * rng :=
  let '(x, g1) := draw g in (lo + N.to_nat (x mod N.of_nat (S (hi - lo))), g1).

(** src/local_test.rs:319-321, [gen_bool]. *)
Definition gen_bool (g : rng) : bool * rng := let '(x, g1) := draw g in (N.odd x, g1).

(** src/local_test.rs:323-340, [gen_string] (lengths of 26-28).  Both generators are the one of the thread. *)
Definition gen_string (g : rng) : bytes * rng :=
  let '(n1, g1) := gen_between 2 5 g in
  let '(n2, g2) := gen_between 2 5 g1 in
  let '(d, g3) := gen_between 0 2 g2 in
  let '(a, g4) := random_alphanumeric n1 g3 in
  let '(b, g5) := random_alphanumeric n2 g4 in
  (a ++ repeat DASH d ++ b, g5).

(** src/local_test.rs:30-34, [collect_rand]: [MIN_FIELDS..MAX_FIELDS] is 1 or 2. *)
Fixpoint gen_times {A} (gen : rng -> A * rng) (n : nat) (g : rng) : list A * rng :=
  match n with
  | 0 => ([], g)
  | S n' => let '(x, g1) := gen g in let '(l, g2) := gen_times gen n' g1 in (x :: l, g2)
  end.
Definition collect_rand {A C} (gen : rng -> A * rng) (into : list A -> C) (g : rng) : C * rng :=
  let '(n, g1) := gen_between 1 2 g in let '(l, g2) := gen_times gen n g1 in (into l, g2).

Definition into_set {V} eqv (l : list V) : list V := fold_left (set_insert eqv) l [].
Definition into_map {V} (l : list (bytes * list V)) : setmap V := fold_left (fun m ks => map_insert m (fst ks) (snd ks)) l [].

(** src/local_test.rs:488-497, [rand_mime]; [mimes] are the three of the list. *)
Definition rand_mime (mimes : mime ML * mime ML * mime ML) (g : rng) : mime ML * rng :=
  let '(m0, m1, m2) := mimes in
  let '(x, g1) := draw g in ((if (x mod 3 =? 0)%N then m0 else if (x mod 3 =? 1)%N then m1 else m2), g1).

(** src/local_test.rs:181-197, [FileEntry::gen]; [gen_bytes] (342-344) is [gen_string]. *)
Definition gen_file (mimes : mime ML * mime ML * mime ML) (g : rng) : file_entry * rng :=
  let '(named, g1) := gen_bool g in
  let '(fn, g2) := if named then let '(s, g2) := gen_string g1 in (Some s, g2) else (None, g1) in
  let '(_, g3) := gen_bool g2 in
  let '(data, g4) := gen_string g3 in
  let '(ct, g5) := rand_mime mimes g4 in
  (mkFE ct fn data, g5).

Definition gen_entry {V} (eqv : forall a b : V, {a = b} + {a <> b}) (gen : rng -> V * rng) (g : rng) : (bytes * list V) * rng :=
  let '(k, g1) := gen_string g in
  let '(s, g2) := collect_rand gen (into_set eqv) g1 in
  ((k, s), g2).

(** src/local_test.rs:72-77, [TestFields::gen]. *)
Definition gen_fields (mimes : mime ML * mime ML * mime ML) (g : rng) : test_fields * rng :=
  let '(texts, g1) := collect_rand (gen_entry bytes_eq_dec gen_string) into_map g in
  let '(files, g2) := collect_rand (gen_entry fe_eq_dec (gen_file mimes)) into_map g1 in
  (mkTF texts files, g2).

(** ** src/local_test.rs: the clients *)

(** The iterators of 351-359 and 399-407: every value with its name. *)
Definition pairs {V} (m : setmap V) : list (bytes * V) := flat_map (fun ks => map (pair (fst ks)) (snd ks)) m.

(** The order of the calls in 364-389 and 409-429: a file (while there are any) before each text, then the
    remaining files. *)
Fixpoint intersperse {A} (texts files : list A) : list A :=
  match texts with
  | [] => files
  | t :: texts' =>
      match files with
      | [] => t :: intersperse texts' []
      | f :: files' => f :: t :: intersperse texts' files'
      end
  end.

Definition text_call (x : bytes * bytes) : cfield (mime ML) := CText (fst x) (snd x).
Definition file_call (x : bytes * file_entry) : cfield (mime ML) :=
  CStream (fst x) (fe_fname (snd x)) (Some (fe_ctype (snd x))) (slice_source (fe_data (snd x))).

(** src/local_test.rs:346-392, [test_client]; [g] and [gbuf] as in [mock_client]. *)
Definition test_client (octet : mime ML) (guess : path -> mime ML) (g gbuf : rng) (tf : test_fields) : res iokind hbuf :=
  match mock_client ML octet guess g gbuf creq_default
          (intersperse (map text_call (pairs (tf_texts tf))) (map file_call (pairs (tf_files tf)))) with
  | Err _ => Panic
  | x => x
  end.

Definition text_lazy (x : bytes * bytes) : lfield (mime ML) := mkLF (fst x) (LText (snd x)).
Definition file_lazy (x : bytes * file_entry) : lfield (mime ML) :=
  mkLF (fst x) (LStream (fe_fname (snd x)) (fe_ctype (snd x)) (slice_source (fe_data (snd x)))).

(** [Read::read_to_end] on [PreparedFields]: [sz k] is the size of the buffer of the [k]-th read. *)
Fixpoint prepared_to_end (fuel : nat) (sz : nat -> nat) (k : nat) (s : prepared) : res iokind bytes :=
  match fuel with
  | 0 => OutOfFuel
  | S fuel' =>
      match lazy_read (sz k) s with
      | (Ok [], _) => Ok []
      | (Ok d, s1) => match prepared_to_end fuel' sz (S k) s1 with Ok b => Ok (d ++ b) | x => x end
      | (Err KInterrupted, s1) => prepared_to_end fuel' sz (S k) s1
      | (x, _) => x
      end
  end.

(** src/local_test.rs:394-441, [test_client_lazy]. *)
Definition test_client_lazy (guess : path -> mime ML) (g gbuf : rng) (fuel : nat) (sz : nat -> nat) (tf : test_fields) : res iokind hbuf :=
  match prepare ML guess g (intersperse (map text_lazy (pairs (tf_texts tf))) (map file_lazy (pairs (tf_files tf)))) with
  | (inl _, _, _) => Panic
  | (inr s, _, _) =>
      match boundary_str s with
      | Ok b =>
          match prepared_to_end fuel sz 0 s with
          | Ok buf => Ok (mkHBuf buf b (content_len s) gbuf)
          | Err _ => Panic
          | x => match x with Panic => Panic | _ => OutOfFuel end
          end
      | _ => Panic
      end
  end.

(** ** src/local_test.rs: the servers *)

(** [get_field] (55-63), [HashSet::remove] and, for a set that is empty then, [remove_entry]; [None] is a failed
    assertion or expectation (81-129). *)
Fixpoint take_value {V} (eqv : forall a b : V, {a = b} + {a <> b}) (k : bytes) (x : V) (m : setmap V) : option (setmap V) :=
  match m with
  | [] => None
  | (k', s) :: m' =>
      if beq k' k then
        if in_dec eqv x s then
          match remove eqv x s with
          | [] => Some m'
          | s' => Some ((k', s') :: m')
          end
        else None
      else option_map (cons (k', s)) (take_value eqv k x m')
  end.

Definition has_key {V} (k : bytes) (m : setmap V) : bool := existsb (fun ks => beq (fst ks) k) m.

(** src/local_test.rs:79-132, [check_field], with [FileEntry::from_field] (156-175). *)
Definition check_field (fuel : nat) (sz : nat -> nat) (tf : test_fields) (h : field_headers ML) (r : breader)
  : res iokind test_fields * breader :=
  match fh_ctype ML h with
  | None =>
      if has_key (fh_name ML h) (tf_texts tf) then
        match read_to_string fuel sz r with
        | (Ok text, r1) =>
            (match take_value bytes_eq_dec (fh_name ML h) text (tf_texts tf) with
             | Some m => Ok (mkTF m (tf_files tf))
             | None => Panic
             end, r1)
        | (OutOfFuel, r1) => (OutOfFuel, r1)
        | (_, r1) => (Panic, r1)
        end
      else (Panic, r)
  | Some ct =>
      if has_key (fh_name ML h) (tf_files tf) then
        match read_to_end fuel sz 0 r [] with
        | (Ok _, data, r1) =>
            (match take_value fe_eq_dec (fh_name ML h) (mkFE ct (fh_filename ML h) data) (tf_files tf) with
             | Some m => Ok (mkTF (tf_texts tf) m)
             | None => Panic
             end, r1)
        | (OutOfFuel, _, r1) => (OutOfFuel, r1)
        | (_, _, r1) => (Panic, r1)
        end
      else (Panic, r)
  end.

(** src/local_test.rs:458-460 and 483-485: the loops of the two servers (one on [&mut Multipart], the other by
    value).  [szs k] are the buffer sizes for the [k]-th field. *)
Fixpoint test_loop (trim : bool) (fuel : nat) (szs : nat -> nat -> nat) (k : nat) (tf : test_fields)
    (x : option (rentry breader (mfield ML))) (rest : nat) : res iokind test_fields :=
  match rest with
  | 0 => OutOfFuel
  | S rest' =>
      match x with
      | None => Panic
      | Some x =>
          match unwrap_opt x with
          | Panics _ _ => Panic
          | Returns None => Ok tf
          | Returns (Some f) =>
              match mf_inner ML f with
              | None => Panic
              | Some r =>
                  match check_field fuel (szs k) tf (mf_headers ML f) r with
                  | (Ok tf1, r1) => test_loop trim fuel szs (S k) tf1 (into_entry ML trim r1) rest'
                  | (y, _) => y
                  end
              end
          end
      end
  end.

(** The first field of [test_server_entry_api] (src/local_test.rs:478-481) is expected to be there. *)
Definition entry_there (x : option (rentry breader (mfield ML))) : bool :=
  match x with
  | Some x => match expect_alt (bs "Expected entry, got none") (bs "Error reading entry") x with Returns _ => true | Panics _ _ => false end
  | None => false
  end.

(** src/local_test.rs:443-486, [test_server] and (if [by_value]) [test_server_entry_api]. *)
Definition test_server (trim by_value : bool) (fuel : nat) (szs : nat -> nat -> nat) (room : nat -> nat) (gsrv : rng) (h : hbuf) (tf : test_fields)
  : res iokind test_fields :=
  let q := for_server h gsrv in
  if match sr_len q with Some n => (n =? N.of_nat (length (sr_data q)))%N | None => true end then
    match sreq_reader room q with
    | None => Panic
    | Some r =>
        let x := into_entry ML trim r in
        if (negb by_value || entry_there x)%bool then test_loop trim fuel szs 0 tf x fuel else Panic
    end
  else Panic.

(** src/local_test.rs:227-249, [do_test], with [assert_is_empty] (134-145). *)
Definition do_test (octet : mime ML) (guess : path -> mime ML) (trim lazy by_value : bool) (fuel : nat)
    (szc : nat -> nat) (szs : nat -> nat -> nat) (room : nat -> nat) (g gbuf gsrv : rng) (tf : test_fields) : res iokind unit :=
  match (if lazy then test_client_lazy guess g gbuf fuel szc tf else test_client octet guess g gbuf tf) with
  | Ok h =>
      match test_server trim by_value fuel szs room gsrv h tf with
      | Ok (mkTF [] []) => Ok tt
      | Ok _ => Panic
      | Err k => Err k
      | Panic => Panic
      | OutOfFuel => OutOfFuel
      end
  | Err k => Err k
  | Panic => Panic
  | OutOfFuel => OutOfFuel
  end.

(** ** fuzz/fuzzers/server_basic.rs *)

Definition FUZZ_BOUNDARY : bytes := bs "--12--34--56".

(** The inner loop, 47-54: fill and consume until the field is empty; [expect] panics on an error. *)
Fixpoint fuzz_field (fuel : nat) (r : breader) : res iokind unit * breader :=
  match fuel with
  | 0 => (OutOfFuel, r)
  | S fuel' =>
      match read_to_boundary r with
      | (Ok [], r1) => (Ok tt, r1)
      | (Ok d, r1) => fuzz_field fuel' (consume (length d) r1)
      | (OutOfFuel, r1) => (OutOfFuel, r1)
      | (_, r1) => (Panic, r1)
      end
  end.

(** The outer loop, 43-56.  The target was written for a version whose text fields are not read; [text k] tells
    whether the [k]-th field is passed over. *)
Fixpoint fuzz_loop (trim : bool) (text : nat -> bool) (fuel : nat) (k : nat) (r : breader) (rest : nat) : res iokind unit :=
  match rest with
  | 0 => OutOfFuel
  | S rest' =>
      match read_entry ML trim r with
      | (Ok (Some _), r1) =>
          if text k then fuzz_loop trim text fuel (S k) r1 rest'
          else match fuzz_field fuel r1 with
               | (Ok _, r2) => fuzz_loop trim text fuel (S k) r2 rest'
               | (x, _) => x
               end
      | (Ok None, _) | (Err _, _) => Ok tt
      | (Panic, _) => Panic
      | (OutOfFuel, _) => OutOfFuel
      end
  end.

(** fuzz/fuzzers/server_basic.rs:28-57, [do_fuzz]. *)
Definition do_fuzz (trim : bool) (text : nat -> bool) (fuel : nat) (room : nat -> nat) (g : rng) (data : bytes) : res iokind unit :=
  if length data <? length FUZZ_BOUNDARY then Ok tt
  else match sreq_reader room (sreq_new data FUZZ_BOUNDARY g) with
       | None => Panic
       | Some r => fuzz_loop trim text fuel 0 r fuel
       end.

(** ** src/bin/read_file.rs *)

(** src/bin/read_file.rs:52-54, the loop of [main]: the names printed, and how it ends; [unwrap] panics on an error. *)
Fixpoint read_file_loop (trim : bool) (fuel : nat) (r : breader) : list bytes * res iokind unit :=
  match fuel with
  | 0 => ([], OutOfFuel)
  | S fuel' =>
      match read_entry ML trim r with
      | (Ok (Some h), r1) => let '(l, x) := read_file_loop trim fuel' r1 in (fh_name ML h :: l, x)
      | (Ok None, _) => ([], Ok tt)
      | (OutOfFuel, _) => ([], OutOfFuel)
      | _ => ([], Panic)
      end
  end.

End WithMime.

(** src/bin/read_file.rs:59-75, [RandomReader::read] with [n] bytes of room, on any reader. *)
Definition random_read (n : nat) (g : rng) (t : transport) : (iokind + bytes) * rng * transport :=
  if n =? 0 then (inr [], g, t)
  else let '(len, g1) := gen_range1 n g in let '(x, t1) := source_read len t in (x, g1, t1).

(** The transport that such a reader is: the [k]-th read has room for [room k + 1] bytes. *)
Fixpoint random_chunks (fuel : nat) (room : nat -> nat) (k : nat) (g : rng) (t : transport) : transport :=
  match fuel with
  | 0 => []
  | S fuel' =>
      match t with
      | [] => []
      | _ => match random_read (S (room k)) g t with
             | (inr b, g1, t1) => Chunk b :: random_chunks fuel' room (S k) g1 t1
             | (inl e, g1, t1) => Fail e :: random_chunks fuel' room (S k) g1 t1
             end
      end
  end.

(** Every read uses up a byte or a piece. *)
Definition random_reader (room : nat -> nat) (g : rng) (t : transport) : transport := random_chunks (transport_size t) room 0 g t.

(** src/bin/read_file.rs:34-57, [main], with the boundary of the first argument and the file of the second. *)
Definition read_file (ML : mime_lib) (trim : bool) (fuel : nat) (room : nat -> nat) (g : rng) (boundary : bytes) (file : transport)
  : list bytes * res iokind unit :=
  read_file_loop ML trim fuel (with_body (random_reader room g file) boundary).
