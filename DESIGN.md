# Formal model of `abonander/multipart` (0.18.0) in Coq 8.16.1

Build: `cd rocq && coq_makefile -f _CoqProject -o Makefile && make -j4` (about 4 minutes on 4 cores). Only the standard library is
used. Nothing is admitted; there are no axioms, functors, module types or switched-off checks.

## Shape of the development

All files are in `rocq/theories/`, logical name `Verif`.

| layer | files | contents |
|---|---|---|
| model | `Bytes` `Io` `Boundary` `Utf8` `Httparse` `Field` `Inplace` `Rand` `Fs` `Save` `Client` `Lazy` `Mock` `Savedir` `Iron` `Requests` `Readers` `Results` `Harness` `Servers` `Examples` `Buffer` `BufferSave` `Tests` `Lazy64` `Builders` `Messages` `Together` `Lives` `Visits` `Mixed` | executable Gallina functions, one per Rust function, each with a comment citing file and lines in `/repo` |
| specification | `Spec` `HeaderSpec` `WireSpec` | small definitions that do not mention the model: occurrences of a byte string, the bytes before the first delimiter, the fields of a body, UTF-8 as encoded scalar values, the header grammar, the wire format |
| driving the API | `Drive` `Toy` | reading a whole request with read sizes of one's choice; a toy `Mime` library for examples |
| proofs | `*Proofs` `SaveFacts` | invariants and lemmas |
| theorems | `Props*` | the property theorems, and beside each an `Example` with a concrete case that meets the hypotheses |

Conventions. Bytes are `N`; lengths and indices are `nat`; `u64`/`u32` limits and sizes are `N`, with saturation written out where the
code saturates. A `&mut self` function returns the new state. `Result` and `SaveResult` are data; a panic (also of a debug assertion,
an index out of range or `unreachable!`) is the explicit value `Panic`/`SPanic`. A loop without structural measure takes fuel and returns
`OutOfFuel`/`SFuel`, which no Rust function returns; the theorems either show that enough fuel exists, or hold for every amount of
fuel and mention only the results that are not `OutOfFuel`, or (for loops that really diverge: C38, C47) show that no fuel is enough.

Nondeterminism. A transport (`R: Read`) is the list of the results its future `read` calls will return: `Chunk bytes` (an empty chunk is
a transient `Ok(0)`) or `Fail kind`; the exhausted list is end of file for ever. Quantifying over these lists quantifies over all
chunkings, errors and transient ends. `live t` excludes transient ends, `quiet t` excludes errors, `steady t` all errors but interrupted reads, `exact_chunks D t l` says that a chunk border inside the CRLF of a delimiter only follows contents among `l` of fewer than 1023 bytes, `no_split_crlf D t` excludes a chunk
border between the CR and the LF of a delimiter. A destination (`W: Write`) is the bytes accepted so far and the list of results of its
future `write` calls (`WAccept n`, `WFail kind`; the exhausted list accepts everything). The file system is a partial function from
paths to directories and files, together with lists of outcomes for future `mkdir`, `open` and `write` calls. A random generator is the
list of numbers it will produce. A user is an arbitrary list of API calls.

`mime_lib` (the functions of the crate `mime` that are called: parse, show, is-text) is a record quantified over in every theorem; it
is not an axiom. Where a theorem needs more of it than being a function (round trips: a shown type parses back), that is a hypothesis
of the theorem.

## Trusted base

1. Coq's kernel (`coqc`, `coqchk`), including `vm_compute`.
2. `Print Assumptions` answers "Closed under the global context" for every theorem in `MANIFEST.json`: no axioms, not even of the
   standard library. (`coqchk -o` lists seven axioms of `Coq.ssr.ssrunder`, a file that the standard library loads with the `Ltac`
   plugins; no theorem uses them.)
3. That the model is a faithful reading of the sources. The code was read, not run.
4. The contracts of what is called but not part of the crate:
   * `buf_redux::BufReader` with `MinBuffered(min)`: `fill_buf` reads until `min` bytes are buffered, stopping at `Ok(0)`, and keeps what
     is buffered when a read fails. `Io` assumes that there is always room in the buffer for the next read. The real buffer has
     8 KiB (`DEFAULT_BUF_SIZE`) and its data is moved to the front when the room behind it is short; `Buffer` models that (with saving in `BufferSave`), and C88 and C99 prove the
     assumption for boundaries up to 2046 bytes and `set_min_buf_size` up to 4096 (C88 refutes it beyond). A chunk may have any size (the real one is limited by the
     buffer; since all chunkings are quantified over, this covers more cases).
   * `twoway::find_bytes`, `str::find`: the least index. `str::from_utf8`: the automaton of the standard library, proved equivalent to
     the definition of UTF-8 in `Spec`. `str::trim` over the Unicode white-space table.
   * `httparse::parse_headers` is modelled concretely (`Httparse`); both the versions that trim trailing blanks of a value and those that
     do not are covered by the parameter `trim`. SIMD variants and the `obs-fold` details of later versions are not modelled.
   * `rand` `Alphanumeric`/`gen_range`: any character of the set, any number of the range. No statement about probability is made.
   * `std::fs`: `create_dir_all`, `OpenOptions`, `File::write`, `remove_dir_all`, and `tempfile` (a fresh directory with a random suffix of
     six characters, retried on collision). Links, permissions, other processes that remove or rename, and durability are not
     modelled. Several saves at once on one disk are (`Together`): the save functions written again as programs whose steps are single calls of
     mkdir, open and write, proved equal to `Save` when run alone. Whole requests with temporary directories, up to the removal, are too (`Lives`), and requests through the Iron middleware with their handler (`Visits`), and both together (`Mixed`); there a removal
     is any number of calls that each remove some of the paths. Not modelled are memory orders and the order in which several handles of one process reach the disk: a call happens at one point.
   * `std::io::copy`: a loop of `read` and `write_all` with a retry on `Interrupted`; its specialisations are not modelled. `Read::read_to_end`: the same with any buffer sizes. `buf_redux::BufReader` with its default policy (readers of saved data): as the standard one, 8 KiB, bypassed by large reads.
   * `mime` 0.2 as used by hyper 0.9/0.10, iron and nickel: a syntax tree and its `Display`; hyper's header parser is not modelled, the
     theorems start from the parsed header.
5. Rust itself: `Drop` runs when the model says so. Unwinding is not modelled: after `Panic` nothing is claimed about cleanup.

## Which parts of the code are modelled

| source | modelled | not modelled |
|---|---|---|
| `src/server/boundary.rs` | everything, with the unit tests (`Tests`) | logging, the benchmark |
| `src/server/field.rs` | header parsing, `read_entry`, `MultipartField`, `MultipartData` (with `read_to_end`/`read_to_string`), in-place iteration, `ReadEntryResult` and its conversions, iteration by value | the warning about nested multipart bodies |
| `src/server/mod.rs` | `Multipart`: `from_request`, `with_body`, `read_entry`/`into_entry`, `foreach_entry`, `save` | `Borrow` |
| `src/server/save.rs` | `SaveBuilder`, saving of fields and requests, `Entries`, `SavedData`, `DataReader`, `SaveDir`, `SaveResult`, `PartialReason`, `write_debug` | `Debug` formatting (a parameter) |
| `src/server/{hyper,iron,nickel,tiny_http}.rs` | boundary extraction, `Switch`, the Iron middleware with `before` and the texts of its errors | the servers themselves |
| `src/client/mod.rs`, `sized.rs`, `lazy.rs`, `hyper.rs` | the writer, `SizedRequest`, the lazy client, the headers of the Hyper client, `client_request` up to hyper's `send` | `HttpRequest for ()` (it is the request that never fails); the sum of lengths is unbounded in `Lazy` and a `u64` in `Lazy64` (C90) |
| `src/mock.rs` | `ClientRequest`, `HttpBuffer`, `ServerRequest`, `StdoutTee` | `Debug` |
| `src/lib.rs` | `random_alphanumeric` | macros (used as the `match` they expand to) |
| `src/local_test.rs`, `fuzz/fuzzers/server_basic.rs`, `src/bin/read_file.rs` | the four round trip tests, the fuzz target, the tool | logging; the `extended` group of tests |
| `examples/{tiny_http,iron,rocket,hyper_server,nickel}.rs` | the handlers | the servers, what is printed with `println!` |
| `examples/{hyper_client,hyper_reqbuilder,iron_intercept}.rs`, `src/bin/form_test.rs` | the clients up to sending, the chain with its handler, the handler | binding and connecting, what is printed |
| `src/server/mod.rs` (tests) | `issue_104`, `issue_114` (`Tests`) | |
| `fuzz/fuzzers/logger.rs`, `test_find_header` | | all |

## Mutation testing

`seeded/LOG.jsonl` has one line per wrong program tried: the model was edited in a scratch copy as a realistic bug would, everything
was rebuilt, and the theorems that no longer prove were recorded. A theorem that survived although its claim had become false was
tightened; this is recorded in the same line.

## Properties: what is modelled, how it is proved, what is missing

`_refuted` theorems show that the statement in `properties.jsonl` is false of the model (and, by our reading, of the code); the other
theorems of such a property are the parts that hold.

### C01 Server reader never panics (proved)

Invariant of every reachable reader state (`inv`: `search_idx` within the buffer, nothing before it starts a delimiter, the state agrees with what is at the index), preserved by every call; induction over lists of calls.

Status: All transports, boundaries and call sequences.

Theorems: `C01_no_panic`.

### C02 Field data is exactly a prefix of the field, never beyond its boundary (proved)

The invariant relates the index to the first occurrence of the delimiter in (buffer ++ rest of the stream); delivered data is followed through arbitrary calls. Specification: `first_split`.

Theorems: `C02_prefix`, `C02_end`, `C02_where`.

### C03 Field data does not depend on how the transport splits the body (partial)

`content` (bytes before the delimiter minus one CRLF) against what a reading loop delivers. The counterexample splits the CRLF when the buffer is full; the parts that hold exclude that, bound the content (below 1023 bytes the buffer is refilled in time) or bound the size of reads.

Status: Full claim false of the code (CRLF split between chunks at a full buffer): C03_refuted. Holds for contents shorter than 1023 bytes, when no chunk border falls inside the CRLF of a delimiter after a longer one, or for read buffers < 1024. C95 shows that these conditions are sharp.

Theorems: `C03_refuted`, `C03_unsplit_partial`, `C03_short_partial`, `C03_small_reads_partial`, `C03_whole_body_partial`.

### C04 No spurious end of field (proved)

`read_to_boundary` returns an empty slice only at the delimiter, shown from the invariant; `C04_withheld` bounds what is held back.

Theorems: `C04_no_spurious_end`, `C04_withheld`.

### C05 fill_buf is stable when nothing is consumed (proved)

Idempotence of the search step on an unchanged buffer.

Status: For transports that report no transient end of file; for those that do, the slice can change (C05_transient_refuted).

Theorems: `C05_fill_stable`, `C05_transient_refuted`.

### C06 Boundary classification (proved)

`judges` in `Spec` classifies the bytes after the first delimiter; `read_entry` is shown to agree with it, and the classification to be unique.

Theorems: `C06_classification`, `C06_unique`.

### C07 End of request is final (proved)

Once in state `AtEnd` nothing is read or handed out; induction over calls.

Theorems: `C07_end_final`.

### C08 End is reported only when the closing boundary was received (proved)

Corollaries of the classification (C06) for all transports, also failing ones.

Theorems: `C08_end_means_closed`, `C08_truncated_is_error`.

### C09 Skipping a field equals reading it (partial)

Skipping = consuming the slices of `read_to_boundary`; the counterexample again needs a CRLF split between chunks.

Status: Full claim false of the code (C09_refuted); holds under the stated buffer condition.

Theorems: `C09_refuted`, `C09_skip_partial`.

### C10 Transient transport errors in field data lose nothing (proved)

The same list of calls on the transport with and without the failure; delivered data is compared.

Theorems: `C10_retry`, `C10_retry_ends`, `C10_lossless`.

### C11 Transient transport errors between fields lose nothing (partial)

Failing during the header block loses the boundary that was consumed already: counterexample. Failing before that is harmless.

Status: Full claim false of the code for failures in the header phase.

Theorems: `C11_refuted`, `C11_retry_partial`.

### C12 read_entry terminates (proved)

A measure on buffer and transport decreases; fuel bounds are explicit.

Theorems: `C12_calls_return`, `C12_foreach_returns`, `C12_progress`.

### C13 Header parsing does not depend on chunking (partial)

`with_headers` sees prefixes of the block; the parser is monotone in its input (`HttparseProofs`), hence soundness. The counterexample is a block larger than the minimum buffer, arriving in two chunks.

Status: Soundness for all chunkings; completeness for header blocks up to 1024-|boundary|-3 bytes; false beyond. C97_read gives the exact limit for bodies in the form of RFC 2046.

Theorems: `C13_sound`, `C13_refuted`, `C13_complete_partial`.

### C14 Content-Disposition is parsed as written (proved)

The header grammar of `HeaderSpec` is parsed, and the name is shown to be that between the quotes.

Status: Any chunking; that the entry is returned needs the block to fit the 1024-byte threshold.

Theorems: `C14_as_written`, `C14_returned`.

### C15 Parameter order in Content-Disposition is irrelevant (partial)

`get_str_after "name="` also matches inside `filename=`: counterexample by computation; the characterisation of what is returned for the reversed order is the partial theorem.

Status: False of the code: filename before name is misread. Extra parameters after name are harmless.

Theorems: `C15_refuted`, `C15_reversed_partial`, `C15_extra_params_partial`.

### C16 An entry always has a form-data Content-Disposition with a name (proved)

Inversion of `read_entry`, `parse_field_headers`; specification `form_data`, `header_value`; `C16_exact` gives acceptance as an equivalence for blocks of at most four headers.

Theorems: `C16_entry_requirements`, `C16_otherwise_invalid`, `C16_exact`.

### C17 Header names are matched case-insensitively (proved)

`find_header` respects `same_headers`; `C17_outcome` carries it through `read_entry` to the result and the rest of the stream.

Theorems: `C17_case_insensitive`, `C17_outcome`.

### C18 Names, filenames and header values are valid UTF-8 (proved)

Values are checked as UTF-8; substrings cut at ASCII characters stay UTF-8 (`Utf8Proofs`).

Theorems: `C18_utf8`.

### C19 Regular client wire format (proved)

The writer over an arbitrary stream (write schedule) emits `wire` of `WireSpec`.

Status: Regular client, any short-write schedule.

Theorems: `C19_wire`, `C19_succeeds`.

### C20 A failing client stream has received a prefix of the body (proved)

As C19 with failures: what the stream has received is a prefix of `wire`.

Theorems: `C20_prefix`.

### C21 SizedRequest sends the measured body (proved)

`SizedRequest` buffers; `finish` applies the headers with the length of the buffer and copies it.

Theorems: `C21_sized`, `C21_always`.

### C22 A rejected request is not opened (partial)

Call traces of the request (`call` list). The answer of `apply_headers` is dropped by `from_request`: counterexample.

Status: Refuted for the regular and the lazy client: send ignores the answer of apply_headers. Holds for SizedRequest.

Theorems: `C22_refuted`, `C22_lazy_refuted`, `C22_sized_partial`.

### C23 After a failed write later calls are no-ops (partial)

Counterexample from a failed write followed by a successful one; each call by itself reports its failure.

Status: Refuted: after a failed call later calls still write and send can succeed. Each call does report its own failure, having written a prefix of its field.

Theorems: `C23_refuted`, `C23_reports_partial`.

### C24 Lazy body bytes (proved)

The state of `PreparedFields` determines the bytes still to come; each `read` hands out a prefix of them.

Status: Sources whose reads do not fail; for failures see C27 and C61.

Theorems: `C24_reads`, `C24_to_end`, `C24_send`, `C24_send_succeeds`.

### C25 Lazy content length (partial)

`content_len` against the length of `lazy_wire`.

Status: Refuted: text fields are not counted. The length falls short of the body by exactly the text fields.

Theorems: `C25_refuted`, `C25_short_by_texts_partial`, `C25_no_texts_partial`.

### C26 PreparedFields::boundary never panics and names the boundary used (partial)

`boundary()` slices the closing delimiter, which is empty for the empty form.

Status: Refuted: panics for the empty form. Holds for every other form.

Theorems: `C26_refuted`, `C26_nonempty_partial`.

### C27 A failed lazy read consumes nothing (partial)

A failing source after other bytes were put into the same buffer: counterexample; the loss is bounded.

Status: Refuted: bytes already in the buffer are lost; send can succeed with a damaged body. A failed call loses fewer bytes than its buffer holds.

Theorems: `C27_refuted`, `C27_loss_partial`, `C27_bytewise_partial`.

### C28 Client to server round trip (proved)

C19 composed with C03/C13 through `parts`.

Status: Conditions: representable strings, delimiter absent from the fields, header block within the minimum buffer, and the chunking condition of C03.

Theorems: `C28_round_trip`.

### C29 Lazy client to server round trip (proved)

C24 composed with C03/C13.

Status: Conditions as for C28; no interrupted source reads (C27).

Theorems: `C29_round_trip`.

### C30 Client field names cannot inject headers (partial)

Counterexamples with a quote and with a line end in the name; positive part for names in `plain`.

Status: Refuted: quotes and line ends in names are not escaped. Holds for plain names.

Theorems: `C30_refuted`, `C30_header_refuted`, `C30_plain_partial`.

### C31 Saving copies the field byte for byte (proved)

One relation for all copy loops (`copies`): bytes consumed = bytes written; instances for memory, text, writers and files.

Theorems: `C31_write_to`, `C31_memory`, `C31_file`.

### C32 Full means complete (partial)

A save that returns `Full` ended at an empty slice (`ended`), which for a terminated field means the content.

Status: False as stated: a body cut off inside a field is saved as Full (C32_refuted). Proved for fields terminated by a delimiter; a chunk border inside the CRLF of the delimiter can leave that CRLF in the data.

Theorems: `C32_refuted`, `C32_terminated_partial`, `C32_any_chunking_partial`.

### C33 size_limit bounds what is saved per field (partial)

Invariant of the limited copy loop; the counterexample needs more than a buffer in memory and then a file.

Status: False as stated: the limit is applied separately to the memory part and to the file part. Proved: write_to and memory results respect it; files have at most size_limit + min(size_limit, memory_threshold) bytes.

Theorems: `C33_refuted`, `C33_write_to_partial`, `C33_path_partial`.

### C34 Small limits never touch the disk (partial)

Counterexample with a first buffer above the limit; positive part is C35.

Status: False as stated: when a buffer overshoots the limit an empty file is created. A field that fits never touches the disk (C35_fits_partial).

Theorems: `C34_refuted`, `C35_fits_partial`, `C35_fits_any_chunking_partial`, `C35_small_body`.

### C35 memory_threshold bounds in-memory data (partial)

Case analysis of `with_path` (`with_path_cases`): where the save stopped and what was pending then.

Status: The bound is proved. That a field that fits stays off the disk is false when a chunk border splits the CRLF before the delimiter (C35_refuted); proved for the other chunkings, and for all chunkings if the field and that CRLF fit.

Theorems: `C35_bound`, `C35_refuted`, `C35_fits_partial`, `C35_fits_any_chunking_partial`, `C35_small_body`.

### C36 SavedData::Text is valid UTF-8 and equals the data (proved)

The text loop appends only valid prefixes.

Theorems: `C36_text`, `C36_whole`.

### C37 force_text reports invalid UTF-8 (partial)

Four invalid bytes are kept as `Bytes`; `C37_exact_partial` follows the text phase fill by fill up to the end of the longest valid prefix (`text_bad`), then the rest phase.

Status: False as stated: four or more invalid bytes are saved as Full(Bytes). Proved: never Text; fields of up to three bytes are reported; with room for the content, the error is reported exactly when fewer than four bytes follow the longest valid prefix, and everything is kept as Bytes otherwise. The input may contain interrupted reads.

Theorems: `C37_refuted`, `C37_never_text_partial`, `C37_short_partial`, `C37_exact_partial`.

### C38 Saving terminates (partial)

The text loop makes no progress on four invalid bytes when no limit applies: no fuel suffices. Otherwise a measure decreases.

Status: False as stated: with size_limit = memory_threshold = u64::MAX and four invalid bytes the text phase never ends. Proved in all other cases.

Theorems: `C38_refuted`, `C38_write_to_partial`, `C38_path_partial`.

### C39 SaveResult::Error means nothing was done (partial)

Counterexample: the first write fails after `open`.

Status: False as stated: a failing first write to the new file. Proved for write_to and for fields that fit in memory.

Theorems: `C39_refuted`, `C39_write_to_partial`, `C39_memory_partial`, `C39_file_partial`.

### C40 Default save never overwrites (proved)

`create_new` in the file system model; every path that existed keeps its node.

Theorems: `C40_no_overwrite`, `C40_files_kept`.

### C41 Files are only created inside the save directory under random names (proved)

Relation `touched` between file systems before and after, over all rounds of the request loop.

Status: every path changed by saving did not exist before; it is either directory/(12 alphanumeric characters from the random source) or a created ancestor directory; default open options

Theorems: `C41_files`, `C41_names`, `C41_with_dir`.

### C42 count_limit bounds the number of saved fields (proved)

Invariant of the loop over entries.

Status: for count_limit <= u32::MAX (its type); also for keep_partial

Theorems: `C42_count_limit`.

### C43 A request with exactly count_limit fields is saved in full (partial)

The loop is compared with `parts`; the counterexample is a request with exactly `count_limit` fields.

Status: false when the number of fields equals count_limit; proved: what is saved is always a prefix with exact contents (all of it if Full), and strictly below the limit the result is Full when nothing fails; no line end of a delimiter split between two reads after a content of 1023 bytes or more

Theorems: `C43_refuted`, `C43_exact_partial`, `C43_full_partial`.

### C44 Resuming after CountLimit continues with the next field (partial)

`with_entries` run again; the entry that was read is dropped.

Status: false: the field read just before the limit is noticed is dropped; proved: exactly that one is lost

Theorems: `C44_refuted`, `C44_one_lost_partial`.

### C45 Entries groups fields by name in order and counts them (proved)

`push_assoc` against a specification by filtering the sequence of saved fields.

Status: any starting entries; order of arrival, no empty vector, distinct names, saturating count

Theorems: `C45_grouping`, `C45_entries`.

### C46 Iron Intercept (ThrowError) never panics and reports limits (partial)

The strict middleware; outcome as a function of the result of the loop (`loop_outcome`), excluded cases shown unreachable.

Status: False for the size limit: a field of up to twice the limit is accepted (the same fault as C35). The count limit, the error cases, termination and absence of panics are proved.

Theorems: `C46_no_panic`, `C46_ends`, `C46_outcome`, `C46_count`, `C46_count_only`, `C46_size_only`, `C46_size_refuted`, `C46_size_partial`, `C46_within`, `C46_accepted`.

### C47 Iron Intercept (Continue) completes every request (partial)

The lenient loop repeats with the same state once the count is reached; positive part by induction on rounds.

Status: False: the loop never ends once the count limit is reached. Below the limit it ends and keeps every field, oversized ones cut to a prefix.

Theorems: `C47_refuted`, `C47_never_ends`, `C47_ends_partial`, `C47_result_partial`, `C47_truncation_refuted`.

### C48 into_result_strict is pessimistic (partial)

Case analysis.

Status: False as stated: Partial(SizeLimit) gives Ok.

Theorems: `C48_refuted`, `C48_errors_partial`.

### C49 with_filename saves into the OS temp directory (partial)

`set_file_name` on a path with the file name already the directory.

Status: False as stated: set_file_name replaces the last component of the temporary directory.

Theorems: `C49_refuted`, `C49_parent_partial`.

### C50 multipart_boundary recognises exactly POST multipart/form-data requests (partial)

Each extraction function is characterised by a separate description of the header; refutations per integration; requests made by the crate's own client are recognised by all.

Status: False for each integration: hyper does not see the boundary utf-8, iron ignores the method, nickel method and type, tiny_http both as well as case and quotes. Each is characterised exactly; requests of the crate's own client are recognised by all four. The header parser of hyper is not modelled.

Theorems: `C50_hyper_partial`, `C50_hyper_refuted`, `C50_iron_partial`, `C50_iron_refuted`, `C50_nickel_partial`, `C50_nickel_refuted`, `C50_tiny_http_partial`, `C50_tiny_http_refuted`, `C50_tiny_http_plain_partial`, `C50_own_client`, `C50_from_request`, `C50_switch`, `C50_round_trip`.

### C51 next_entry_inplace keeps the field usable (proved)

`inner : option`; invariant over all calls.

Theorems: `C51_inplace`.

### C52 StdoutTee duplicates faithfully (partial)

`StdoutTee` with two write schedules.

Status: Refuted: the inner writer gets write_all of the whole buffer on every call, so a short write of stdout repeats the rest. Exact when stdout takes everything at once; in general the data plus the repeated tails.

Theorems: `C52_refuted`, `C52_stdout_partial`, `C52_whole_partial`, `C52_repeats_partial`.

### C53 Saved data reads back (partial)

`readable` of what `with_path` returned in the resulting file system.

Status: Proved for the default open options; false with mod_open_opts options that reuse a file without truncating it.

Theorems: `C53_readable`, `C53_refuted`.

### C54 SaveDir lifetime (proved)

State machine of `SaveDir` with an arbitrary list of calls and an end (drop, `into_path`, `delete`).

Status: remove_dir_all by contract; its failure on drop is ignored as in the crate.

Theorems: `C54_dropped`, `C54_kept`, `C54_deleted`, `C54_observed`, `C54_saving`, `C54_with_dir`, `C54_temp`, `C54_outside`.

### C55 Preamble and epilogue are ignored (partial)

`parts` ignores preamble and epilogue; with C03. The counterexample uses a transport of fixed-size pieces.

Status: False for all chunkings: a preamble moves the chunk borders and with them the fault of C03. Proved under the C03 side condition on chunk borders or read sizes.

Theorems: `C55_refuted`, `C55_preamble_epilogue_partial`.

### C56 Random boundaries and filenames are well-formed (proved)

Length and characters of `random_alphanumeric`.

Theorems: `C56_boundary`, `C56_alphanumeric`, `C41_names`.

### C57 Valid UTF-8 text that fits the threshold is saved as Text (partial)

Counterexample with a character cut by a buffer border; positive part with room for three more bytes per 497 (`shown_at_most`).

Status: False as stated: the bytes of a character cut by a buffer border are counted twice. Proved when the limits leave room for three more bytes per 497 (none for contents below that length); the input may contain interrupted reads.

Theorems: `C57_refuted`, `C57_text_partial`.

### C58 Saving a field within the limits succeeds (partial)

Progress of every loop when nothing fails (`CompleteProofs`), with exact content by C32.

Status: False for all chunkings (the fault of C03). Proved for bodies with no line end split between two reads after a content of 1023 bytes or more, and for all chunkings with at most that CRLF as surplus; not for force_text; size limit or threshold below u64::MAX unless text is ignored. The input may contain interrupted reads.

Theorems: `C58_refuted`, `C58_save_succeeds_partial`, `C58_any_chunking_partial`.

### C59 The lazy client is reusable (partial)

`prepare` takes the fields out of the form.

Status: Refuted: the form is always emptied and a second send panics.

Theorems: `C59_refuted`, `C59_emptied_partial`.

### C60 Lazy errors name the failing field (proved)

Inversion of `from_fields` and `lazy_send`.

Theorems: `C60_named`, `C60_only_then`, `C60_send`.

### C61 A failing lazy send leaves a prefix of the body (proved)

The copy loop hands over prefixes; measure for termination.

Theorems: `C61_prefix`, `C61_terminates`.

### C62 The mock request and buffer are exact (proved)

Mock types with arbitrary random numbers; composition with C19 and C28.

Theorems: `C62_write_all`, `C62_write`, `C62_client`, `C62_client_sized`, `C62_server`, `C62_round_trip`.

### C63 The Iron middleware leaves nothing behind (proved)

`touched` (C41) and `remove_dir_all`: everything new is below the temporary directory.

Status: Well-formed file systems; the removal of the directory succeeds.

Theorems: `C63_nothing_left`.

### C64 The parent of the temporary directories is created (partial)

`tempdir_in` does not create its parent.

Status: False: only the temporary directory itself is created. Holds if the parent exists.

Theorems: `C64_refuted`, `C64_existing_partial`.

### C65 Headers of the Hyper client (proved)

Request record before and after `apply_headers`.

Status: Display of mime 0.2 by contract.

Theorems: `C65_headers`.

### C66 Reading a field to the end (partial)

`read_to_end` is shown to be a `run` of reads, so that C03 applies; termination by the bytes and events left. `persist` repeats the call after errors.

Status: Termination, no loss and no panic hold in full; the exact content needs the condition of C03 on the chunking or buffers below 1024 bytes (counterexample: C66_refuted). The growth policy of Vec is abstracted to arbitrary buffer sizes.

Theorems: `C66_to_end`, `C66_content_partial`, `C66_string_partial`, `C66_refuted`.

### C67 The reader of saved data (partial)

`DataReader` over a slice or over `BufReader` and a file that is a transport; invariant: handed out ++ left = data. Composed with C32.

Status: The claims about the reader hold in full; reading back the content of the field inherits the chunking condition of C03 (C32). File reads and buf_redux's BufReader by contract.

Theorems: `C67_open`, `C67_prefix`, `C67_complete`, `C67_no_panic`, `C67_saved_partial`.

### C68 Extremes of memory_threshold (partial)

From C35 (bound and fit) and C32; counterexamples by computation.

Status: False: with 0 an empty field stays in memory; with u64::MAX a field above the size limit is written to a file. Proved: with 0 nothing non-empty stays in memory; with u64::MAX nothing is written if the field is within the size limit.

Theorems: `C68_zero_refuted`, `C68_zero_partial`, `C68_zero_file_partial`, `C68_max_refuted`, `C68_max_partial`.

### C69 From the client to the saved form (partial)

C19/C24 (wire) with `parts` of the wire format, C43 (saved in full) and C45 (grouping), stated with `found`/`sent_as`.

Status: Holds if no chunk border at the server splits the CRLF of a delimiter after a field of 1023 bytes or more; otherwise false (C69_refuted, from C03). For the lazy client in its wire order.

Theorems: `C69_client_partial`, `C69_lazy_partial`, `C69_refuted`.

### C70 The lazy client with hyper (partial)

`client_request_mut` up to the hand-over to hyper; from C24-C26, C60, C50.

Status: False: with text fields the declared size is too small by exactly these, and an empty form panics; the rest holds. hyper itself is not modelled.

Theorems: `C70_request_partial`, `C70_error`, `C70_round_trip_partial`, `C70_refuted`.

### C71 Interrupted reads do not change what is saved (partial)

InterruptProofs.v shows by simulation that a reader and its `calm` twin (failures removed) go through the same states; C71_* state it for reachable readers. Counterexample by computation.

Status: Holds in full for saving one field (with_path, write_to). False for whole requests: an interrupted read while a delimiter or a header is looked for stops the saving (C71_request_refuted).

Theorems: `C71_saved`, `C71_still_saved`, `C71_written`, `C71_still_written`, `C71_any_interruptions`, `C71_request_refuted`.

### C72 A partially saved field can be resumed (partial)

From the splitting of the rest of the field (`moved`, `pending_app`) and `ended_content`; the request version from where `with_entries` stops (`loop_stopped`). Counterexample by computation.

Status: False: when moving the part held in memory to a file fails, these bytes are lost (C72_refuted). Proved: nothing else is lost or repeated, the loss is bounded by the memory limit, and the request continues with the following fields; under the chunking condition of C03.

Theorems: `C72_refuted`, `C72_error_partial`, `C72_field_partial`, `C72_request_partial`.

### C73 foreach_entry visits every field (partial)

`foreach_entry` is modelled as a loop over operation lists chosen by the callback (PropsForeach.v); induction over the parts with `run_snoc`, `read_entry_parts` and C08. Counterexample from C09.

Status: Order and headers hold in full; the data under the chunking condition of C03. Success is false if the callback leaves more than a buffer unread (C73_refuted, the fault of C09); proved if each visited field is read to its end or is short.

Theorems: `C73_in_order`, `C73_data_partial`, `C73_refuted`, `C73_all_partial`.

### C74 Conversions of results agree; reading by value equals foreach_entry (partial)

`Results.v` models the result types and conversions; case analysis for the agreements, induction over the fuel for the by-value loop (`frun_run`).

Status: All agreements hold in full. The message of ReadEntryResult::unwrap contains a literal {:?} (C74_message_refuted). How Debug shows an error is not modelled.

Theorems: `C74_by_value`, `C74_again`, `C74_entry`, `C74_save`, `C74_map`, `C74_entries`, `C74_reason`, `C74_message_refuted`.

### C75 write_debug lists all entries (proved)

`write_debug` over the writer contract of the client (`sound_writer`, here for a `dest` with arbitrary write schedule); `listing` is the specification.

Status: For all formatters (Debug and Display of the standard library are parameters); file reads by contract (reads_files). C75_request_partial connects it with saving, under the chunking condition of C43.

Theorems: `C75_listing`, `C75_data`, `C75_succeeds`, `C75_request_partial`.

### C76 Any chunking: at most the CRLF of the delimiter as surplus (proved)

`content_padded` (PropsAny.v, EntriesProofs.v): what was delivered before `Ok(0)` is the data before the delimiter with or without its CRLF (`C02_end`, `ended_pre`); `loop_prefix_any` carries this through the loop over the entries; `padded` in Spec.v is the specification.

Status: The form of C02, C32, C43, C66, C69 and C73 that needs no condition on the chunking: exact up to one CRLF (C03_refuted shows that the surplus occurs).

Theorems: `C76_read`, `C76_to_end`, `C76_saved`, `C76_read_back`, `C76_foreach`, `C76_request`, `C76_request_full`, `C76_upload`.

### C77 Fields below 1023 bytes are exact for every chunking (proved)

`short_exact`: with fewer than 1024 bytes of content and CR the buffer is always refilled before the border matters (`short_end`), so `exact_chunks` holds for every chunking, and the theorems of C03, C28, C29, C32, C43, C62 and C69 apply. Sharpness by computation.

Status: C77_longer_refuted shows the bound is sharp. Transport without transient end-of-file; saving under the conditions of C43/C69.

Theorems: `C77_reads`, `C77_same`, `C77_longer_refuted`, `C77_field`, `C77_saved`, `C77_client`, `C77_lazy`, `C77_mock`.

### C78 The fuzz target never reports a failure (proved)

`fuzz_loop_total` (PropsHarness.v): every entry uses up bytes (`read_entry_shrinks`), no read panics (C01), and an error inside a field can only be a failure of the transport (`run_data`); the body of the mock request has none (`sreq_body_spec`).

Status: C78_failing_refuted: with a transport that fails inside a field the expect is reached (the mock request of the target never fails).

Theorems: `C78_loop`, `C78_fuzz`, `C78_failing_refuted`.

### C79 The round trip tests of the crate pass for every random choice (proved)

the clients of Mock.v, Client.v and Lazy.v write the fields of the form (C28, C62, C69); `server_ok` follows the loop of the servers over the parts, field by field (`whole_field`, `next_field`), with the expected multiset as the invariant, so that the final sets are empty. `C79_generated`: by the shape of what the generators draw. `C79_texts_only` by the content length of C46.

Status: C79_texts_only shows that the condition on files in the lazy case is needed; C79_tests is for the generated forms and needs no such condition.

Theorems: `C79_passes`, `C79_texts_only`, `C79_generated`, `C79_every_form`, `C79_tests`.

### C80 The tool read_file lists the fields of a file (partial)

the loop is `foreach_entry` with a callback that does nothing (`read_file_foreach`); `random_chunks_spec`: the random reader keeps the bytes, the failures and liveness; then C73.

Status: C80_refuted: a field that does not fit into the buffer makes the tool panic, since it never reads the fields (the fault of C09). Proved: the names printed are the first names in order for every file; all of them if every field has at most 1016 - |boundary| bytes. C97_file gives the exact limit for bodies in the form of RFC 2046.

Theorems: `C80_in_order`, `C80_lists_partial`, `C80_refuted`.

### C81 A body that breaks off does not pass for a whole one (proved)

no call of the model looks past a read that returns nothing, so a body that has ended behaves like one that has stalled and goes on later (`TruncProofs.v`: `ext n X r` is the reader whose transport has n more empty reads and then X; every function gives the same result and the extended reader). Thus the theorems about whole bodies hold of what has been read of a part of it (`cut_entry`, `cut_skipped`), for every continuation `q`; the loops follow by induction (`foreach_cut`, `loop_cut`). `wire_cut`: the closing delimiter of the bodies of the own clients is unique.

Status: C81_last_incomplete shows why the last field is excepted: a field in which the body breaks off is among the entries of the partial result as if it were complete (compare C32_refuted).

Theorems: `C81_indistinguishable`, `C81_visits`, `C81_saved`, `C81_last_incomplete`, `C81_upload`, `C81_upload_lazy`.

### C82 The Iron middleware lets a request through with its fields, or refuses it without traces (partial)

`Servers.v` models `BeforeMiddleware for Intercept` on a request record (hyper's parsed head and the `Entries` in the extensions) and the texts of the errors, with `Display` of integers as decimal digits (`decimal_spec`: no leading zero, value as given). `temp_first`: what it takes that the first name tried for the temporary directory is taken. The rest follows from C43, C46, C50, C63.

Status: Missing: accepted forms need bodies without a break inside the CRLF of a delimiter after long contents (exact_chunks), a parsed content type in canonical form and no other Entries in the extensions; for Intercepts that continue on limits see C47.

Theorems: `C82_other_requests`, `C82_accepted_partial`, `C82_refused`, `C82_text_partial`, `C82_own_client_partial`, `C82_complete_partial`.

### C83 The example servers echo the form and leave nothing behind (partial)

`Servers.v` models the handlers of the five example servers statement by statement; formatting by other crates (`shows`), reading of files, order of `HashMap`s (`machine`) are parameters. The text of a form (`form_text`) is specified without the model, for some order of the names (`names_of`). `write_debug` is proved over every sound writer (C75), of which `StdoutTee` is one for standard output, and for the other writer if standard output takes everything at once (`tee_whole`). `save_outcome` says how saving a well-formed body with the default limits ends; `save_clean` that dropping the entries removes the directory (C54, C63). `PropsStdout.v`: `spent` says which calls of standard output were made and whether the last failed, `honest` that an action ends as its calls do.

Status: C83_crash_count/_size: tiny_http and Iron panic on every form of 256 or more fields, or with a field longer than 8 MiB + 10 KiB. C83_hidden_refuted: hyper and nickel answer 200 and show nothing when the connection failed. C83_duplicated_refuted: bytes twice in the answer if standard output takes a part. Proved with exact_chunks; C83_complete and C83_echo if standard output takes everything at once; C83_stdout for every standard output (what it gets and which answer is given, but not the body of the answer).

Theorems: `C83_refuses`, `C83_status`, `C83_echo_partial`, `C83_clean`, `C83_complete_partial`, `C83_crash_count`, `C83_crash_size`, `C83_no_crash_partial`, `C83_stdout_partial`, `C83_answers_refuted`, `C83_hidden_refuted`, `C83_duplicated_refuted`.

### C84 What a saved field becomes: text, bytes or a file (partial)

`textual` says what the headers declare, `kept_well` the table of what is kept, without the saver's functions. `text_room`: while a text with room is copied, neither the limit nor the UTF-8 check stops it, whatever fails (induction over the reads). `loop_text` and `loop_kinds` carry the facts about one field through the loop of `with_entries`; results of any kind and any errors are allowed.

Status: C84_text_only is for all bodies, chunkings and failures. Missing in C84_kinds_partial: a text that fits but has not the room of C57 may be kept as bytes (C57_refuted); a line end split between two reads after long contents (C03).

Theorems: `C84_text_only`, `C84_kinds_partial`.

### C85 What a request can make the server hold (proved)

`small` (buffer, pending reads, minimum size) is kept by every operation of the reader, by induction over the reads of `fill_buf`; names are slices of a header value, which is a slice of the buffer. `loop_bound` counts the fields that `with_entries` tries to save against `count_limit`; `held` adds up names and contents in memory, `grown` compares the file systems. `reads_at_most K` says how many bytes one read returns: in the code at most the free space of the buffer.

Status: The bytes held in the buffer are counted, not its capacity. Files may exceed the size limit by the memory threshold: that is the fault of C33.

Theorems: `C85_buffer`, `C85_saving`, `C85_default`.

### C86 The example clients, the middleware example and form_test (partial)

`Examples.v` models the remaining programs. The clients are instances of C69 and C70; what is needed of the content types that `mime_guess` and the crate give (`good_type`: they parse back and have no `--`) is a hypothesis. The middleware example is C82, C46 and C63 with the default limits; that Iron sends 404 when no status is set is a contract (`iron_sends`). `form_test` follows from the totality of `foreach_entry` and `copy_spec` (C75).

Status: C86_status_refuted/C86_never_200: the middleware example never answers 200, since neither it nor the middleware sets a status and Iron then sends 404. Missing in the three partial theorems: a line end of a delimiter split between two reads after long contents (C03); the server side of the clients saves with the default limits.

Theorems: `C86_client_panics`, `C86_client_partial`, `C86_builder_panics`, `C86_builder_partial`, `C86_intercept_ends`, `C86_intercept_clean`, `C86_intercept_other`, `C86_intercept_form_partial`, `C86_never_200`, `C86_status_refuted`, `C86_form_test`, `C86_form_test_fails`.

### C87 Any chunking, part two: whole bodies, middleware, servers and clients (proved)

`almost` relates the fields sent to the fields received. `drain_ended` and `read_all_any` read a body by induction over its fields; `loop_cut_any` is the loop of `with_entries` that ends inside a field; the rest puts C76 through the middleware and the servers. Where the exact theorems have a content, these have a prefix of it and the CRLF.

Status: The exact versions of these claims (C46, C47, C55, C82, C83, C86) need a condition on the chunking, see C03; here there is none, and the contents may have one CRLF as surplus. A delimiter may of course not occur in a content. Completeness with LimitBehavior::Continue only below the count limit (C47).

Theorems: `C87_read_all`, `C87_strict`, `C87_within`, `C87_lenient_ends`, `C87_lenient`, `C87_middleware`, `C87_middleware_says`, `C87_resume`, `C87_echo`, `C87_complete`, `C87_lazy`, `C87_own_client`, `C87_client`.

### C88 The finite buffer (proved)

`Buffer.v` repeats the reader over a buffer with a capacity and an offset. `sim` says that a call of it is the model's call over a transport whose first part is the pieces actually read; simulations compose, so every history of calls is one history over one cut transport (`cuts`; a piece but the last of a chunk fills the room of a read, which is at least the minimum). The condition makes `MinBuffered` always either move the data or find room behind it. The counterexample has a minimum above half of the capacity: the data is then never moved.

Status: buf_redux is not part of the repository; its policy and buffer are modelled after their documentation (Buffer.v). C88_long_refuted is the part of the claim about longer boundaries.

Theorems: `C88_history`, `C88_cuts`, `C88_read_all`, `C88_long_refuted`.

### C89 The reader is a cursor over the body; its unit tests pass for every chunking (proved)

`Tests.v` has the tests of the crate as lists of calls with the answers that they expect. `says` is the specification, a relation over the bytes of the body only; `stands` relates it to the reader. `make_text` uses the exactness of `drain` for short contents and, without a delimiter, `search_kept` (what the search withholds is a beginning of a delimiter); `fill_twice` is issue 93. `predict` computes the answers for a literal body, so that each test is one evaluation and holds for every transport with that body.

Status: For longer sections see C03 and C73_refuted: a CRLF may be delivered with the content, and a delimiter seen by read_to_boundary at the end of the buffer is an error for consume_boundary. read_to_string is modelled without its check for UTF-8 (see C66).

Theorems: `C89_cursor`, `C89_tests`, `C89_peeks`, `C89_no_boundary`, `C89_issue_104`, `C89_again`, `C89_issue_114`.

### C90 The length of a lazy request is a u64 (proved)

`Lazy64.v` repeats the preparation with the additions of the machine (`add64`). `wraps_loop`: without checks every intermediate sum is the unbounded one modulo 2^64. `checks_loop`: with checks the loops agree until the sum leaves the range; since sums only grow, the first such field decides. The refutation has one file of 2^64 - 1 bytes whose contents are never computed.

Status: C90_release_refuted is the part of the claim about builds without checks. Text fields are never counted (C25), so C90_send is about forms of files.

Theorems: `C90_wraps`, `C90_checked`, `C90_in_range`, `C90_send`, `C90_send_succeeds`, `C90_release_refuted`.

### C91 Configuration methods (proved)

`Builders.v` has the setters and the `add` calls as data. `last_fold`: a setter that changes one component and leaves the others makes the fold return the last value given. The middleware theorem instantiates C82 and C46 with the configured record.

Status: For other chunkings see C87; for LimitBehavior::Continue see C47; for the limits themselves C35, C42 and C46. C91_lazy assumes sources without interrupted reads (C61).

Theorems: `C91_save`, `C91_options`, `C91_middleware`, `C91_lazy`.

### C92 Error messages of reading (proved)

`Messages.v` repeats the parsing of the headers with errors that carry their causes, and has the texts. `C92_agrees`: forgetting the causes gives `read_entry` of `Field.v`. The specification `complaint` lists the texts by what is wrong with the headers, `faulty` those about blocks that are not well formed (`PropsMalformed.v`, equivalent to the errors of `parse_headers`), and `block_text` all that concern the block itself.

Status: Display of errors of the transport and of Utf8Error is a parameter; that of httparse's errors is taken from its source. C92_exact and C92_block_exact have the bounds of C16_exact.

Theorems: `C92_agrees`, `C92_sound`, `C92_exact`, `C92_unique`, `C92_delimiter`, `C92_block`, `C92_block_exact`, `C92_fault_unique`, `C92_fault_excluded`.

### C93 What the errors of the lazy client say (partial)

`lazy_display` and `lazy_debug` in `Messages.v`. `copy_fails` follows an error of `copy_prepared` to an event of the schedule of the stream or to a failing read of a source (`read_kinds`); `from_fields_cases` gives the first file that fails.

Status: False: an error in the data of a field is reported without the field as an error of the stream. Proved: which text is given for which error, and that the text for the stream is right if no source fails. Display and Debug of strings and of io::Error are parameters.

Theorems: `C93_says`, `C93_stream_partial`, `C93_blames_refuted`.

### C94 Minimum buffer size (partial)

`effective` is the minimum in force. `fill_reads` (which events one fill consumes) and `read_to_boundary_spec` give the bounds; `C94_reset` uses that `read_entry` sets 1024; `run_content_min` is the argument of C03 for short fields with any minimum in place of 1024.

Status: False: fill_buf can return fewer bytes than the minimum, again and again, with more of the field to come; with n below two delimiters the transport is read although n bytes are buffered; lowering the minimum can add a CRLF to the data (C03). Proved: how far below the minimum the slice can be, that the transport is not read while the minimum in force is buffered, the reset for every field, and exact data for every content of at most two bytes less than the minimum. Buffers that grow beyond the 8 KiB of buf_redux (minimum above 4096) are outside the contract of fill_buf in Io.v.

Theorems: `C94_min_partial`, `C94_min_refuted`, `C94_reads`, `C94_quiet`, `C94_quiet_refuted`, `C94_reset`, `C94_data_partial`, `C94_data_refuted`.

### C95 Which bodies are safe from a split CRLF (proved)

`PropsSharp.v`. The specification `rfc` describes the body, `form_at` the place of one field in it. `held`: the reader holds back the bytes of the chunk until the whole chunk is in its buffer (`nsteps`, `fill_held`), so that when it has the CR and not the LF it delivers both (`drain_surplus`); `C95_exactly` puts the body into three chunks for one direction and uses C03 for short contents for the other.

Theorems: `C95_exactly`, `C95_surplus`.

### C96 Saving reports the first failure (partial)

`PropsBlame.v`. The calls made are what the schedules and the transport have lost between start and end; `all_fine` and `stopped` speak about them. `rtb_calls`, `try_write_all_calls`, `mkdirs_calls`, `open_calls` per function, `try_read_buf_calls` for any copying closure, then induction over the entries. No invariant of the reader is needed, so it holds for every state.

Status: False for saves that reach the limit on the number of fields (with_entries asks for the next entry before it looks at the count): the error is dropped (C96_count_refuted). C96_request proves the claim for all other results, and for that one that at most this one failed read is passed over. The errno of obstructions is the contract of Fs.v.

Theorems: `C96_field`, `C96_writer`, `C96_request`, `C96_request_dir`, `C96_count_refuted`.

### C97 Which fields can be skipped, and which header blocks are read, whatever the chunks (proved)

`PropsSkip.v`. `lcp` is the length of the common prefix, `block` a header block without any bound on its length, `rfc` the form of the body (C95). If the condition holds, one search yields at least the header block (`search_ahead`, `block_read`) and leaves the reader before the content or at the delimiter with room for it (`entry_step`). If it does not, the body is put into two chunks: one that ends M bytes after the start of the header block, then every search yields less than the block (`search_behind`, `stuck_headers`), or one byte after the delimiter, then the reader has found the delimiter and never reads on (`entry_short`). `held` and `nsteps` (C95) keep the second chunk unread up to there. `C97_buffer` carries the first direction to the finite buffer of C88 (`sim_read_entry`): a reader that has found the delimiter behind the content has both in its buffer.

Status: The only-if parts need chunks as long as the field; with the finite buffer (C97_buffer) they are only possible up to its size.

Theorems: `C97_exactly`, `C97_file`, `C97_read`, `C97_buffer`.

### C98 Which bodies are saved exactly whatever the chunks (proved)

`PropsSaveSharp.v`. The copy loops take whole buffers (`gulps`; the text phase takes less only of a buffer that is not UTF-8), shown for every phase of `with_path` that ends in `Full` (`copy_gulps`, `text_gulps`, `path_gulps`). `waiting`: the content up to the CR is buffered or comes before the chunk that ends with the CR; a fill shows either all of it with the CR or a part that is followed by at least M more bytes (`fill_waiting`), so whole takes leave the CR to come or have taken it without the LF (`gulps_waiting`), and the end of the field is only seen after the LF (`field_surplus`). `held` (C95) brings the chunks unread to the field (`loop_surplus`). The other direction is C77.

Status: The equivalence leaves out text fields that are not UTF-8: there the copying closure takes less than a buffer, and the limit depends on the threshold. C98_surplus needs UTF-8 only of the field it is about.

Theorems: `C98_exactly`, `C98_surplus`.

### C99 Saving through the finite buffer (proved)

`BufferSave.v` gives the functions of `Save` for any reader with `read_to_boundary`, `consume` and `read_entry`; for the reader of `Boundary` they are those of `Save` by computation (`gwith_entries_same` and others), for the one of `Buffer` they are saving through the finite buffer. `along` lifts the simulation of C88 through every loop of saving to histories of calls. Every read has at least the minimum as room (`ffill_sim`), so the pieces of a cut chunk have at least that length and chunks of up to 1024 bytes stay whole (`cuts_small`): the division of C98 that spoils a content, delivered byte by byte but for one chunk of 1024 bytes, is also one for the finite buffer. The other direction uses the bound on the steps (`saved_fuel`), since the cut transport depends on the run.

Status: buf_redux by its documented behaviour, as in C88. C99_exactly as C98 without text fields that are not UTF-8.

Theorems: `C99_history`, `C99_request`, `C99_full`, `C99_exactly`.

### C100 Requests over the limits, whatever the chunks (proved)

`PropsOver.v`. `loop_outcome_any` is the induction over the loop of `with_entries` without any condition on the chunks: a save that meets no failure ends in full, at the count, or at a field that with two more bytes exceeds the limit. `with_path_cut_any`: a save in full would hold at least the content (C76), which C33 forbids. `entries_cut_any` walks over the fields before (`loop_advance`) and applies it; what is kept comes from `loop_cut_any` (C87) and the count of fields from C45. The middleware and the servers follow.

Status: Fields that exceed the size limit by two bytes or less, or by at most the threshold, are left open here: whether they are refused depends on the chunks (C46_size_refuted, C95).

Theorems: `C100_count`, `C100_size`, `C100_strict_count`, `C100_strict_decides`, `C100_strict_size`, `C100_never_ends`, `C100_crash_count`, `C100_crash_size`, `C100_no_crash`.

### C101 Resuming a partial save, any number of times, whatever the chunks (proved)

`PropsAgain.v`. `tries` is a series of attempts with the environment threaded through; `tries_moved` shows by induction that each attempt moves the reader over what it saved and lost (`try_moved`, from `with_path_cases` and `save_disk_spec`), that later attempts leave earlier files alone (`left_kept`), and `in_order` puts the pieces together. For requests `loop_stopped_any` finds the field at which the loop stopped and `onward_any` continues behind it.

Status: Default open options. A destination failure loses the bytes that were taken from the buffer for the failing write; the bound on the loss is part of the theorem.

Theorems: `C101_field`, `C101_lossless`, `C101_request`.

### C102 What saved fields become, whatever the chunks (proved)

`PropsKindsAny.v`. `fill_pre`: a fill shows all that is left before the delimiter, all but its CRLF, or at least 500 bytes. So a text with room is never refused (`text_room_any`): the part of a character at the end of a buffer is only met in long buffers. The bounds on memory come from C35 for any chunking, the content from `save_step_any`, and `loop_kinds_any` is the induction over the fields, where later saves keep earlier files (`readable_kept`).

Status: The room for text counts characters divided between buffers twice, as the code does. The size of the file needs contents of less than 2^64 bytes.

Theorems: `C102_kinds`.

### C103 Saves at the same time on one disk (proved)

`Together.v`, `TogetherProofs.v`, `PropsTogether.v`. The save functions as trees of calls (`prog`); `job_same` proves that run alone they give the answer and the disk of the functions in `Save`. `safe` says that a program writes only through handles it got by creating a file. `pool_ok` is the invariant over all orders of calls: for each save a private disk, part of the common one, on which the rest of its program does what the whole does alone; kept by each call (`call_ok`, `turn_ok`). A call that differs from the private disk means that another made the path (`made`, `clash`). `spends` and `hears` keep what the run alone is told: the answers of the save's own disk in their order, with successful calls of mkdir in between. `within` bounds the paths of a program and excludes clashes (`no_clash`). The end under fair turns is by induction on the tree (`ends`).

Status: Nobody removes or renames here; for temporary directories see C104. Calls are atomic. The open options must have create_new, the default; without it two saves of one path write into the same file.

Theorems: `C103_alone`, `C103_saved`, `C103_clash`, `C103_independent`, `C103_fair`.

### C104 Requests with temporary directories at the same time (proved)

`Lives.v`, `LivesProofs.v`, `PropsLives.v`. A life is `temp_with_prefix`, reading back, the operations on the `SaveDir` and its end; `plife` is the same as a tree of calls, and `life_same` proves that run alone it gives the answer and the disk of `run_life`, which is made of the functions of `Savedir`; in `plife` the removal is a list of calls that remove some paths each (`premove`, `l_stages`), in `run_life` it is one. `confined` says where a program may go: before it has a directory it only makes one, with it it stays in it (`owned` gets that from `safe` and `within` of C103), and it removes no other. `all_ok` is the invariant over all orders of calls: the directories of the lives are different, everything new is in one of them, and each life has a private disk that equals the common one in its own directory. A directory name that is taken is the only thing by which a life notices another, and only a life that may try the name can have taken it (`met`). `hears` says what a life was told: the answers of its own disk in their order, and that name taken any number of times in between if `met`; `alike` and `lulled_solo` turn this into the very run of the life when nobody else tries its names.

Status: Calls are atomic; the removal of a directory is any number of calls that each remove some of the paths. The open options must have create_new, the default. A removal that fails must leave no path without the directories above it. The directory for temporary files must exist, and nothing but the lives writes in it.

Theorems: `C104_alone`, `C104_independent`, `C104_clear`, `C104_seen`, `C104_fair`.

### C105 Forms uploaded at the same time all arrive (proved)

`PropsCrowd.v`. C104_fair gives the end, C104_independent the run alone; in that run the first directory name is free, the new directory is empty, and `any_fuel` (C76) saves all fields; C104_seen carries them to what was read back and to the common disk. `C105_crowd` adds the clients (`posted`: C19 and C28 for the eager one, C24 and C28 for the lazy one) and takes the latest of the ends.

Status: For every chunking, so the saved contents may have the CRLF of the delimiter as surplus (C76). No statement about how likely it is that directory names differ.

Theorems: `C105_arrives`, `C105_crowd`.

### C106 Files and streams are dropped as they are read to completion (proved)

`PropsHeld.v`. An invariant of the loop of `read`: the streams held are a suffix of those at the start, the first of them with some of its part taken, and the closing delimiter is untouched while one is held; with the equation of what was taken and what is pending (C24) the suffixes cancel.

Status: What an Err of a read has already put in the buffer is counted as taken (C27).

Theorems: `C106_held`.

### C107 Requests through the Iron middleware at the same time (proved)

`Visits.v`, `PropsVisits.v`. `pvisit` is `read_request` of `Iron`, the handler's reads and the end of the request, as a tree of calls; `visit_same` proves that run alone it gives the answer and the disk of `run_visit`, which is made of the functions of `Iron`. `confined_visit` shows that every way through it, strict or lenient, accepted or refused, stays in its own directory and, if the removal works, gives it up; `gives` carries the result of a loop with this. `pool_alone` is the argument of C104 for any such programs. `C107_answer` adds C87 for the run alone.

Status: For every chunking, so a content may have the CRLF of the delimiter as surplus, and the size limit is met with it (C87). With Continue and as many fields as the count limit the middleware does not end (C47); in the model such a request ends with OutOfFuel, and nothing is said about its directory. Calls are atomic. A removal that fails must leave no path without the directories above it.

Theorems: `C107_alone`, `C107_independent`, `C107_clear`, `C107_answer`, `C107_fair`, `C107_ends`.

### C108 Forms posted at the same time to a server with the Iron middleware (proved)

`PropsServed.v`. By C107 a request whose directory names nobody else tries is answered as on its own; that answer is computed by `any_fuel` (C76) for a request that continues, and by `strict_outcome_any` and `entries_cut_any` (C100) for one that is to refuse, with an explicit number of steps (`strict_fuel`). `posted_parts` says that the body of either client has the fields of the form; `C108_crowd` puts these together with C107_clear.

Status: For every chunking, so a content may have the CRLF of the delimiter as surplus (C76). With Continue and as many fields as the count limit the middleware does not end (C47); the theorem excludes that, and fields over the size limit with Continue. Whether a field between the limit less two bytes and the limit plus the memory threshold is refused depends on the pieces. No statement about how likely it is that directory names differ.

Theorems: `C108_decided`, `C108_crowd`.

### C109 Requests with and without the Iron middleware at the same time (proved)

`Mixed.v`: a request is a life (`Lives`) or a visit (`Visits`), as a program that ends with the answer of its kind. `PropsMixed.v`: both keep to their directories (`confined_life`, `confined_visit`), so `pool_alone` applies; the names of the kinds differ because the prefixes do and the six characters drawn have the same length (`kinds_apart`). `C109_crowd` carries C105 and C108 over: a request alone is the pool with one program (`lone_turns`).

Status: C103 to C108 are about requests of one kind. A handler that uses the prefix of the middleware is covered by C109_alone and C109_independent only. As in C108, with Continue a form with as many fields as the count limit is excluded (C47).

Theorems: `C109_alone`, `C109_independent`, `C109_kinds`, `C109_clear`, `C109_fair`, `C109_crowd`.

### C110 Requests with temporary directories in different places at the same time (proved)

`BasesProofs.v`, `PropsBases.v`. The invariant of `LivesProofs.v` with a directory for each request: a new entry of one cannot lie in a new entry of another, because what is above it is there from the start (`above_root`, `roots_eq`), so the directories of two requests are disjoint also if their bases are nested. `pool_bases` is `pool_alone` for this; the rest follows C109.

Status: Generalizes C109, where all have one directory. The directories in which the temporary ones are made exist at the start; one inside the temporary directory of another request is not covered. That requests get to their end is C109_fair, which is about any directories. As in C108, with Continue a form with as many fields as the count limit is excluded (C47).

Theorems: `C110_alone`, `C110_independent`, `C110_strangers`, `C110_clear`, `C110_crowd`.

