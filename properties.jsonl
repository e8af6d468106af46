{"id": "C01", "title": "Server reader never panics", "statement": "No sequence of calls on a server `Multipart` / `MultipartData` (read, fill_buf, consume, set_min_buf_size, read_entry) panics, including the debug assertions, whatever bytes the body holds and however the transport delivers or fails them.", "quantifier": "all bodies, boundaries, transport schedules (chunk sizes, transient errors, transient EOFs) and all call sequences", "why_tests_cant": "the space of byte strings x chunkings x call sequences is infinite; the fuzzer only samples it", "anchors": ["src/server/boundary.rs:read_to_boundary", "src/server/boundary.rs:consume_boundary", "src/server/boundary.rs:consume", "src/server/field.rs:read_entry"]}
{"id": "C02", "title": "Field data is exactly a prefix of the field, never beyond its boundary", "statement": "Bytes handed to the user for one field, concatenated over any sequence of read/fill_buf+consume calls, are always an in-order, gap-free prefix of the bytes preceding the next boundary; when a non-empty read returns Ok(0) on a terminated field, everything up to (at most) the CRLF before the boundary has been delivered.", "quantifier": "all bodies, chunkings, transient errors, read sizes and consume amounts", "why_tests_cant": "chunking and call interleavings are unbounded", "anchors": ["src/server/boundary.rs:read_to_boundary", "src/server/boundary.rs:consume", "src/server/boundary.rs:read"]}
{"id": "C03", "title": "Field data does not depend on how the transport splits the body", "statement": "For a terminated field the data delivered until Ok(0) is the bytes before the boundary minus exactly one CRLF, for every chunking.", "quantifier": "all chunkings of the same body and all read sizes", "why_tests_cant": "only the split points that tests use are covered; the failing split needs >=1024 buffered bytes", "anchors": ["src/server/boundary.rs:read_to_boundary", "src/server/boundary.rs:find_boundary"]}
{"id": "C04", "title": "No spurious end of field", "statement": "While the field still has undelivered data and the transport has not ended, fill_buf never returns an empty slice (and so read never returns Ok(0)); at most |boundary|+3 buffered bytes are withheld.", "quantifier": "all bodies, chunkings and call sequences", "why_tests_cant": "the fragment-at-buffer-end case depends on alignment of chunk ends with the boundary", "anchors": ["src/server/boundary.rs:find_boundary", "src/server/boundary.rs:read_to_boundary"]}
{"id": "C05", "title": "fill_buf is stable when nothing is consumed", "statement": "Two consecutive fill_buf calls with no consume in between return the same bytes (issue #93), on transports that do not report a transient end of file.", "quantifier": "all reachable reader states and bodies, all transports without a transient Ok(0)", "why_tests_cant": "#93 was a state-dependent bug seen only for particular contents", "anchors": ["src/server/boundary.rs:read_to_boundary"]}
{"id": "C06", "title": "Boundary classification", "statement": "After the field's data, read_entry looks at the two bytes after the boundary: CRLF continues with a field, `--` ends the request, any other pair is InvalidData, fewer than two bytes is UnexpectedEof, and no boundary at all is UnexpectedEof; nothing else is possible.", "quantifier": "all bodies and chunkings, field data read to its end", "why_tests_cant": "needs all bodies and chunkings", "anchors": ["src/server/boundary.rs:consume_boundary", "src/server/field.rs:read_entry"]}
{"id": "C07", "title": "End of request is final", "statement": "Once read_entry reported the end, every later read_entry reports the end again, and no further byte is ever delivered, whatever follows in the body.", "quantifier": "all epilogues, transports and later call sequences", "why_tests_cant": "unbounded histories", "anchors": ["src/server/boundary.rs:consume_boundary", "src/server/boundary.rs:read_to_boundary"]}
{"id": "C08", "title": "End is reported only when the closing boundary was received", "statement": "read_entry returns End only if the bytes received contain the boundary followed by `--`; a truncated body always surfaces as an error.", "quantifier": "all bodies (in particular all truncations of a valid body) and chunkings", "why_tests_cant": "every truncation point of every body", "anchors": ["src/server/boundary.rs:consume_boundary"]}
{"id": "C09", "title": "Skipping a field equals reading it", "statement": "Calling read_entry while part of the current field is unread gives the same next entry as reading the field to the end first.", "quantifier": "all bodies, chunkings and amounts already read", "why_tests_cant": "depends on the alignment of the buffer with the boundary", "anchors": ["src/server/boundary.rs:consume_boundary", "src/server/field.rs:read_entry"]}
{"id": "C10", "title": "Transient transport errors in field data lose nothing", "statement": "If a transport read fails, the error is reported by the call, and retrying continues exactly where it stopped: the data delivered over all successful calls is the same as without the error.", "quantifier": "all error positions and kinds, all call sequences", "why_tests_cant": "all crash/interrupt points", "anchors": ["src/server/boundary.rs:read_to_boundary", "src/server/boundary.rs:read"]}
{"id": "C11", "title": "Transient transport errors between fields lose nothing", "statement": "If read_entry fails because of a transient transport error (e.g. Interrupted), calling it again yields the field that it was about to return.", "quantifier": "all error positions", "why_tests_cant": "all error positions", "anchors": ["src/server/field.rs:with_headers", "src/server/field.rs:read_headers", "src/server/field.rs:read_entry"]}
{"id": "C12", "title": "read_entry terminates", "statement": "read_entry and foreach_entry return after finitely many transport reads on every finite body.", "quantifier": "all bodies, schedules and reader states", "why_tests_cant": "termination is a liveness property", "anchors": ["src/server/boundary.rs:consume_boundary", "src/server/field.rs:with_headers", "src/server/mod.rs:foreach_entry"]}
{"id": "C13", "title": "Header parsing does not depend on chunking", "statement": "The entry's headers are those of the complete header block, for every chunking.", "quantifier": "all chunkings, all header blocks", "why_tests_cant": "chunking space", "anchors": ["src/server/field.rs:with_headers"]}
{"id": "C14", "title": "Content-Disposition is parsed as written", "statement": "For `Content-Disposition: form-data; name=\"N\"[; filename=\"F\"]` the entry has name N and filename F.", "quantifier": "all names and filenames without ';', control characters, or a leading/trailing quote", "why_tests_cant": "all strings", "anchors": ["src/server/field.rs:ContentDisp::parse_required", "src/server/field.rs:get_str_after", "src/server/field.rs:trim_quotes"]}
{"id": "C15", "title": "Parameter order in Content-Disposition is irrelevant", "statement": "`form-data; filename=\"F\"; name=\"N\"` gives name N and filename F too.", "quantifier": "all names and filenames", "why_tests_cant": "all strings", "anchors": ["src/server/field.rs:ContentDisp::parse_required", "src/server/field.rs:get_str_after"]}
{"id": "C16", "title": "An entry always has a form-data Content-Disposition with a name", "statement": "read_entry returns an entry only if the part's header block holds at most 4 headers, all values valid UTF-8, and a Content-Disposition header whose type is form-data and which has a `name=` parameter; otherwise InvalidData.", "quantifier": "all header blocks", "why_tests_cant": "all malformed inputs", "anchors": ["src/server/field.rs:with_headers", "src/server/field.rs:copy_headers", "src/server/field.rs:ContentDisp::parse_required"]}
{"id": "C17", "title": "Header names are matched case-insensitively", "statement": "Changing the ASCII case of any header name in a part does not change the parsed FieldHeaders.", "quantifier": "all header lists and all case changes", "why_tests_cant": "2^n case variants", "anchors": ["src/server/field.rs:find_header"]}
{"id": "C18", "title": "Names, filenames and header values are valid UTF-8", "statement": "Every name and filename exposed by FieldHeaders is valid UTF-8.", "quantifier": "all header bytes", "why_tests_cant": "all byte strings", "anchors": ["src/server/field.rs:io_str_utf8", "src/server/field.rs:copy_headers"]}
{"id": "C19", "title": "Regular client wire format", "statement": "After writing any list of fields and send(), the stream has received exactly `--b CRLF headers CRLF CRLF data CRLF ... --b-- CRLF` for these fields in order, for every pattern of short writes and interrupted writes.", "quantifier": "all field lists, contents, write schedules", "why_tests_cant": "all schedules of partial writes", "anchors": ["src/client/mod.rs:MultipartWriter"]}
{"id": "C20", "title": "A failing client stream has received a prefix of the body", "statement": "If the stream fails at any point, what it received before is a prefix of the correct body; nothing is written out of order or twice.", "quantifier": "all crash points of the stream", "why_tests_cant": "all crash points", "anchors": ["src/client/mod.rs:MultipartWriter", "src/client/mod.rs:chain_result"]}
{"id": "C21", "title": "SizedRequest sends the measured body", "statement": "With SizedRequest the wrapped request gets Content-Length equal to the number of bytes then written to it, the bytes are those of C19, and nothing is sent before send().", "quantifier": "all field lists and schedules", "why_tests_cant": "all field lists", "anchors": ["src/client/sized.rs:SizedRequest"]}
{"id": "C22", "title": "A rejected request is not opened", "statement": "If apply_headers returns false the stream is not opened.", "quantifier": "all requests", "why_tests_cant": "decision logic over all request implementations", "anchors": ["src/client/mod.rs:open_stream", "src/client/sized.rs:finish", "src/client/lazy.rs:send"]}
{"id": "C23", "title": "After a failed write later calls are no-ops", "statement": "As documented on client::Multipart: upon the first error, all subsequent API calls are no-ops until send(), which reports the error.", "quantifier": "all failure points and later calls", "why_tests_cant": "all failure points", "anchors": ["src/client/mod.rs:Multipart"]}
{"id": "C24", "title": "Lazy body bytes", "statement": "Reading PreparedFields to EOF yields text fields in order, then the files/streams (in reverse order of addition), then the closing boundary, for every sequence of read buffer sizes.", "quantifier": "all field lists, stream chunkings, read sizes", "why_tests_cant": "all read-size schedules", "anchors": ["src/client/lazy.rs:PreparedFields::read", "src/client/lazy.rs:from_fields"]}
{"id": "C25", "title": "Lazy content length", "statement": "When PreparedFields reports content_len = Some(n), reading it to EOF yields exactly n bytes.", "quantifier": "all field lists without streams", "why_tests_cant": "all field lists", "anchors": ["src/client/lazy.rs:from_fields", "src/client/lazy.rs:content_len"]}
{"id": "C26", "title": "PreparedFields::boundary never panics and names the boundary used", "statement": "boundary() returns the boundary that delimits the body, for every set of fields.", "quantifier": "all field lists", "why_tests_cant": "all field lists incl. the empty one", "anchors": ["src/client/lazy.rs:boundary"]}
{"id": "C27", "title": "A failed lazy read consumes nothing", "statement": "When PreparedFields::read returns an error no bytes were consumed, so that retrying (as io::copy does on Interrupted) produces the full body.", "quantifier": "all error positions", "why_tests_cant": "all error positions", "anchors": ["src/client/lazy.rs:PreparedFields::read"]}
{"id": "C28", "title": "Client to server round trip", "statement": "What the regular client writes, the server reads back as the same list of names, filenames, content types and data.", "quantifier": "all field lists with representable names and data not containing the boundary; all chunkings and read sizes outside the C03 defect", "why_tests_cant": "end-to-end over all inputs and schedules", "anchors": ["src/client/mod.rs:MultipartWriter", "src/server/mod.rs:Multipart", "src/server/field.rs:FieldHeaders"]}
{"id": "C29", "title": "Lazy client to server round trip", "statement": "What the lazy client produces, the server reads back as the same fields (texts first, then streams reversed).", "quantifier": "same as C28", "why_tests_cant": "end-to-end over all inputs and schedules", "anchors": ["src/client/lazy.rs:PreparedFields", "src/server/mod.rs:Multipart"]}
{"id": "C30", "title": "Client field names cannot inject headers", "statement": "Whatever name or filename the application passes to the client, the server sees a single field with that name and filename.", "quantifier": "all names and filenames", "why_tests_cant": "all strings", "anchors": ["src/client/mod.rs:write_field_headers", "src/client/lazy.rs:from_stream"]}
{"id": "C31", "title": "Saving copies the field byte for byte", "statement": "For write_to and for in-memory saving: the bytes written to the destination are exactly the bytes consumed from the field, in order, whatever short writes, interrupts and errors occur on either side.", "quantifier": "all read and write schedules", "why_tests_cant": "all schedules", "anchors": ["src/server/save.rs:try_read_buf", "src/server/save.rs:try_write_all", "src/server/save.rs:write_to"]}
{"id": "C32", "title": "Full means complete", "statement": "If saving a field returns Full, the saved data is the entire field.", "quantifier": "all bodies and schedules", "why_tests_cant": "every truncation point", "anchors": ["src/server/save.rs:try_read_buf", "src/server/save.rs:with_path"]}
{"id": "C33", "title": "size_limit bounds what is saved per field", "statement": "With size_limit = L no field save ever stores more than L bytes, in memory or on disk.", "quantifier": "all fields, limits, thresholds, chunkings", "why_tests_cant": "depends on chunk sizes vs limits", "anchors": ["src/server/save.rs:with_path", "src/server/save.rs:write_to", "src/server/save.rs:try_copy_limited"]}
{"id": "C34", "title": "Small limits never touch the disk", "statement": "If size_limit <= memory_threshold the filesystem is never touched.", "quantifier": "all fields, limits, chunkings", "why_tests_cant": "depends on chunk sizes vs limits", "anchors": ["src/server/save.rs:with_path", "src/server/save.rs:read_mem"]}
{"id": "C35", "title": "memory_threshold bounds in-memory data", "statement": "Data kept in memory by a save is at most min(size_limit, memory_threshold) bytes, and a field that fits is saved without touching the disk.", "quantifier": "all fields, limits, chunkings", "why_tests_cant": "chunk alignment", "anchors": ["src/server/save.rs:read_mem", "src/server/save.rs:save_text", "src/server/save.rs:save_mem"]}
{"id": "C36", "title": "SavedData::Text is valid UTF-8 and equals the data", "statement": "A Text result is valid UTF-8 and is byte for byte the field's data.", "quantifier": "all data and chunkings (also splitting multi-byte characters)", "why_tests_cant": "all split points of multi-byte characters", "anchors": ["src/server/save.rs:save_text"]}
{"id": "C37", "title": "force_text reports invalid UTF-8", "statement": "With force_text, a text field that is not valid UTF-8 and fits the memory threshold gives a Utf8Error, never Full.", "quantifier": "all invalid byte strings", "why_tests_cant": "position of the invalid byte matters", "anchors": ["src/server/save.rs:save_text", "src/server/save.rs:with_path"]}
{"id": "C38", "title": "Saving terminates", "statement": "Saving a field terminates on every finite body for every configuration.", "quantifier": "all data, limits, text policies", "why_tests_cant": "termination", "anchors": ["src/server/save.rs:save_text", "src/server/save.rs:try_copy_limited", "src/server/save.rs:try_read_buf"]}
{"id": "C39", "title": "SaveResult::Error means nothing was done", "statement": "If saving returns Error, no bytes were consumed from the field and no file was created.", "quantifier": "all error points", "why_tests_cant": "all crash points", "anchors": ["src/server/save.rs:SaveResult", "src/server/save.rs:with_path"]}
{"id": "C40", "title": "Default save never overwrites", "statement": "With default open options a save never changes the contents of a file that existed before, and touches no file other than its destination.", "quantifier": "all filesystems, fields, schedules", "why_tests_cant": "all filesystem states", "anchors": ["src/server/save.rs:SaveBuilder::new", "src/server/save.rs:with_path"]}
{"id": "C41", "title": "Files are only created inside the save directory under random names", "statement": "Saving a request with a directory only creates files directly inside that directory, with a 12-character alphanumeric name that does not depend on client-provided names.", "quantifier": "all requests (all header values)", "why_tests_cant": "adversarial inputs", "anchors": ["src/server/save.rs:with_entries", "src/server/save.rs:rand_filename", "src/server/save.rs:with_dir"]}
{"id": "C42", "title": "count_limit bounds the number of saved fields", "statement": "with_entries never ends with more than max(count_limit, fields already present) fields.", "quantifier": "all requests, limits", "why_tests_cant": "all requests", "anchors": ["src/server/save.rs:with_entries"]}
{"id": "C43", "title": "A request with exactly count_limit fields is saved in full", "statement": "A request whose number of fields is at most count_limit is saved with result Full.", "quantifier": "all requests with n <= limit", "why_tests_cant": "boundary value needs all n", "anchors": ["src/server/save.rs:with_entries"]}
{"id": "C44", "title": "Resuming after CountLimit continues with the next field", "statement": "After Partial(CountLimit), removing entries and calling with_entries again saves all the remaining fields.", "quantifier": "all requests and limits", "why_tests_cant": "histories of resumed saves", "anchors": ["src/server/save.rs:with_entries"]}
{"id": "C45", "title": "Entries groups fields by name in order and counts them", "statement": "After any sequence of saved fields, entries.fields maps each name to its fields in arrival order, with no empty vector, and fields_count is their number (saturating at u32::MAX).", "quantifier": "all sequences of pushes", "why_tests_cant": "all histories", "anchors": ["src/server/save.rs:push_field", "src/server/save.rs:recount_fields"]}
{"id": "C46", "title": "Iron Intercept (ThrowError) never panics and reports limits", "statement": "read_request_strict never reaches unreachable!/expect failures; too many fields gives FileCountLimitError and too large a field FileSizeLimitError.", "quantifier": "all requests and limits", "why_tests_cant": "all requests", "anchors": ["src/server/iron.rs:read_request_strict"]}
{"id": "C47", "title": "Iron Intercept (Continue) completes every request", "statement": "With LimitBehavior::Continue the middleware terminates on every request.", "quantifier": "all requests and limits", "why_tests_cant": "liveness", "anchors": ["src/server/iron.rs:read_request_lenient"]}
{"id": "C48", "title": "into_result_strict is pessimistic", "statement": "into_result_strict returns Ok only for Full results.", "quantifier": "all results", "why_tests_cant": "total decision table", "anchors": ["src/server/save.rs:into_result_strict"]}
{"id": "C49", "title": "with_filename saves into the OS temp directory", "statement": "with_filename(f) saves to temp_dir/f.", "quantifier": "all temp dirs and file names", "why_tests_cant": "depends on the host's temp dir", "anchors": ["src/server/save.rs:with_filename"]}
{"id": "C50", "title": "multipart_boundary recognises exactly POST multipart/form-data requests", "statement": "Each HttpRequest integration returns the boundary parameter iff the request is a POST whose Content-Type is multipart/form-data with a boundary (as the trait documents).", "quantifier": "all requests", "why_tests_cant": "all header values", "anchors": ["src/server/tiny_http.rs:multipart_boundary", "src/server/hyper.rs:multipart_boundary", "src/server/iron.rs:multipart_boundary", "src/server/nickel.rs:multipart_boundary"]}
{"id": "C51", "title": "next_entry_inplace keeps the field usable", "statement": "After next_entry_inplace, in every outcome, the field still owns its Multipart, so later calls never hit the `inner taken` panic.", "quantifier": "all outcomes and histories", "why_tests_cant": "all histories", "anchors": ["src/server/field.rs:next_entry_inplace", "src/server/field.rs:take_inner", "src/server/field.rs:give_inner"]}
{"id": "C52", "title": "StdoutTee duplicates faithfully", "statement": "Writing data with write_all through StdoutTee leaves exactly that data in the inner writer.", "quantifier": "all short-write schedules of stdout", "why_tests_cant": "all schedules", "anchors": ["src/mock.rs:StdoutTee"]}
{"id": "C53", "title": "Saved data reads back", "statement": "SavedData::readable() of a completed save yields exactly the saved bytes and size() is their number.", "quantifier": "all saves", "why_tests_cant": "all data", "anchors": ["src/server/save.rs:readable", "src/server/save.rs:size"]}
{"id": "C54", "title": "SaveDir lifetime", "statement": "A temporary save dir is removed on drop unless keep/into_path was called; a permanent one only by delete(). However it ends and however much of it can be removed, nothing outside the directory changes.", "quantifier": "all operation sequences", "why_tests_cant": "all histories", "anchors": ["src/server/save.rs:SaveDir"]}
{"id": "C55", "title": "Preamble and epilogue are ignored", "statement": "Bytes before the first boundary and after the closing boundary have no influence on the entries.", "quantifier": "all preambles not containing the boundary, all epilogues, all chunkings", "why_tests_cant": "all byte strings", "anchors": ["src/server/boundary.rs:consume_boundary"]}
{"id": "C56", "title": "Random boundaries and filenames are well-formed", "statement": "Generated boundaries are 16 alphanumeric characters (so never contain CR, LF, quote, '-' or ';'), generated filenames 12.", "quantifier": "all RNG outputs", "why_tests_cant": "all RNG outputs", "anchors": ["src/lib.rs:random_alphanumeric", "src/client/mod.rs:gen_boundary", "src/server/save.rs:rand_filename"]}
{"id": "C57", "title": "Valid UTF-8 text that fits the threshold is saved as Text", "statement": "With the default text policy, a text field whose content is valid UTF-8 and not longer than min(size_limit, memory_threshold) is saved as Full(Text(content)).", "quantifier": "all valid UTF-8 contents, all chunkings (also cutting multi-byte characters), all limits", "why_tests_cant": "Needs every position at which a buffer border can cut a multi-byte character.", "anchors": ["src/server/save.rs:454-476", "src/server/save.rs:972-981"]}
{"id": "C58", "title": "Saving a field within the limits succeeds", "statement": "A field of at most size_limit bytes is saved with result Full and its exact content when the input does not fail, the destination does not exist, no ancestor of it is a file and the system calls succeed (writes may be short or interrupted).", "quantifier": "all fields, chunkings, limits, write schedules", "why_tests_cant": "all chunkings and short-write schedules", "anchors": ["src/server/save.rs:with_path", "src/server/save.rs:write_to", "src/server/save.rs:try_write_all"]}
{"id": "C59", "title": "The lazy client is reusable", "statement": "As documented on client::lazy::Multipart (\"Reusable\"): after send() or prepare() the form can be sent again with the same fields.", "quantifier": "all forms", "why_tests_cant": "all forms and histories", "anchors": ["src/client/lazy.rs:Multipart", "src/client/lazy.rs:from_fields"]}
{"id": "C60", "title": "Lazy errors name the failing field", "statement": "prepare() fails iff some file cannot be opened or measured; the error names the first such field; send() then has not touched the request, and every other error of send() has no field name.", "quantifier": "all forms, all failures", "why_tests_cant": "all failure positions", "anchors": ["src/client/lazy.rs:from_fields", "src/client/lazy.rs:from_path", "src/client/lazy.rs:LazyError"]}
{"id": "C61", "title": "A failing lazy send leaves a prefix of the body", "statement": "If anything fails during lazy send(), the stream has received a prefix of the body (no source read being interrupted); send() terminates and panics only for an empty form.", "quantifier": "all forms, schedules, crash points", "why_tests_cant": "all crash points", "anchors": ["src/client/lazy.rs:send", "src/client/lazy.rs:PreparedFields::read"]}
{"id": "C62", "title": "The mock request and buffer are exact", "statement": "Whatever the random choices of the mock types: write_all to the mock HttpBuffer stores exactly the data (each write between one byte and all of it), a form sent to the mock ClientRequest (plain or through SizedRequest) leaves exactly the body, boundary and length in the buffer, and the mock ServerRequest delivers exactly its data, so a form sent through the mock round-trips.", "quantifier": "all forms, generators, read sizes", "why_tests_cant": "all random choices", "anchors": ["src/mock.rs:HttpBuffer::write", "src/mock.rs:ClientRequest", "src/mock.rs:ServerRequest::read"]}
{"id": "C63", "title": "The Iron middleware leaves nothing behind", "statement": "If Intercept refuses a request (temporary directory, size limit, count limit, read error), the file system is exactly as before once its temporary directory has been dropped; if it accepts one, everything new is in one fresh directory below the configured parent, owned by the entries, and dropping them restores the file system.", "quantifier": "all requests, limits, behaviours, file systems and failures (removal itself succeeding)", "why_tests_cant": "all failure points and file systems", "anchors": ["src/server/iron.rs:Intercept::read_request", "src/server/iron.rs:Intercept::read_request_strict", "src/server/iron.rs:Intercept::read_request_lenient"]}
{"id": "C64", "title": "The parent of the temporary directories is created", "statement": "As documented for Intercept::temp_dir_path, the configured directory is created if it does not exist.", "quantifier": "all requests and file systems", "why_tests_cant": "depends on the file system", "anchors": ["src/server/iron.rs:Intercept"]}
{"id": "C65", "title": "Headers of the Hyper client", "statement": "apply_headers on a fresh Hyper POST request sets Content-Type to multipart/form-data with exactly the given boundary, sets Content-Length exactly when a length is given, and returns true; for any other method it returns false and sets nothing.", "quantifier": "all boundaries, lengths and requests", "why_tests_cant": "all inputs", "anchors": ["src/client/hyper.rs:apply_headers", "src/client/hyper.rs:multipart_mime"]}
{"id": "C66", "title": "Reading a field to the end", "statement": "read_to_end and read_to_string on the data of a field end without panicking, retry interrupted reads, lose nothing when they fail (what was appended and what remains is the field), and deliver exactly the content of the field, as a string exactly when it is UTF-8; a call repeated after an error continues where the first stopped.", "quantifier": "all field states, transports (chunkings, interruptions, errors), buffer sizes and numbers of repeated calls", "why_tests_cant": "all chunkings and error patterns", "anchors": ["src/server/field.rs:read_to_string", "src/server/field.rs:MultipartData::read", "src/server/boundary.rs:BoundaryReader::read"]}
{"id": "C67", "title": "The reader of saved data", "statement": "Any sequence of read, fill_buf and consume on the reader of SavedData hands out a prefix of the saved data in order, all of it once a read or fill_buf returns nothing; only consuming more than was shown can panic; the reader can be opened exactly if the data is in memory or the file exists; so a field saved in full is read back as its content.", "quantifier": "all saved data, file read patterns (short reads, errors) and sequences of calls", "why_tests_cant": "all interleavings of the reader calls", "anchors": ["src/server/save.rs:SavedData::readable", "src/server/save.rs:DataReader"]}
{"id": "C68", "title": "Extremes of memory_threshold", "statement": "As documented, a memory threshold of 0 saves fields directly to the file system and one of u64::MAX keeps them in memory.", "quantifier": "all fields, limits, file systems and failures", "why_tests_cant": "all limits and field sizes", "anchors": ["src/server/save.rs:memory_threshold", "src/server/save.rs:with_path"]}
{"id": "C69", "title": "From the client to the saved form", "statement": "A form sent by the client (regular or lazy) and saved with save().with_entries within the limits gives, under each name, exactly the fields sent under it, in the order sent, with their file names, content types and contents, in memory or on disk.", "quantifier": "all representable forms, write schedules, chunkings at the server, limits and file systems", "why_tests_cant": "composition of all components over all inputs", "anchors": ["src/client/mod.rs:Multipart", "src/client/lazy.rs:Multipart::send", "src/server/save.rs:with_entries"]}
{"id": "C70", "title": "The lazy client with hyper", "statement": "client_request gives hyper a content type with the boundary of the body and a body that delivers the form, sized (with its length) exactly when no field is a stream; it fails exactly if a field cannot be opened and never panics.", "quantifier": "all forms, random numbers and read sizes", "why_tests_cant": "all forms", "anchors": ["src/client/lazy.rs:client_request_mut", "src/client/lazy.rs:to_body"]}
{"id": "C71", "title": "Interrupted reads do not change what is saved", "statement": "Inserting reads that fail with ErrorKind::Interrupted anywhere in the transport changes neither the result of saving a field, nor what is on disk or written, nor where the reader stands; the same for whole requests.", "quantifier": "all transports, interruptions, reader states, builders, writers and file systems", "why_tests_cant": "all placements of the interruptions", "anchors": ["src/server/save.rs:try_read_buf", "src/server/save.rs:with_path", "src/server/save.rs:write_to"]}
{"id": "C72", "title": "A partially saved field can be resumed", "statement": "When saving stops inside a field, the bytes saved and the bytes a second call saves from the same field are together the content of the field, and the request can be continued after it; nothing is lost or repeated.", "quantifier": "all transports, builders, stopping points and write errors", "why_tests_cant": "all stopping points", "anchors": ["src/server/save.rs:with_path", "src/server/save.rs:with_entries", "src/server/save.rs:PartialEntries"]}
{"id": "C73", "title": "foreach_entry visits every field", "statement": "foreach_entry calls the callback for the fields of the body in order with their headers; the callback gets a prefix of the content of the field, all of it if it reads to the end; the call succeeds and visits all fields whatever the callback reads.", "quantifier": "all bodies, callbacks and chunkings", "why_tests_cant": "all callbacks", "anchors": ["src/server/mod.rs:foreach_entry"]}
{"id": "C74", "title": "Conversions of results agree; reading by value equals foreach_entry", "statement": "into_result, unwrap, expect, expect_alt, unwrap_opt and expect_opt of ReadEntryResult agree on every result, drop no error and panic with the error and a well-formed message; okish, into_opt_both, into_result, into_result_strict, map, into_entries of SaveResult and unwrap_err of PartialReason agree likewise; a loop over into_entry/next_entry makes the same visits as foreach_entry and panics exactly with its error.", "quantifier": "all results, transports, reader states and programs", "why_tests_cant": "all results and programs", "anchors": ["src/server/field.rs:ReadEntryResult", "src/server/save.rs:SaveResult", "src/server/save.rs:PartialReason", "src/server/mod.rs:into_entry", "src/server/field.rs:next_entry"]}
{"id": "C75", "title": "write_debug lists all entries", "statement": "write_debug writes, in some order of the names, the name, number and headers of all entries with exactly their data; at any error what was written is a prefix of this listing; it succeeds exactly if all files can be read and no write fails.", "quantifier": "all entries, orders, file systems, read and write schedules", "why_tests_cant": "all schedules and entries", "anchors": ["src/server/save.rs:write_debug"]}
{"id": "C76", "title": "Any chunking: at most the CRLF of the delimiter as surplus", "statement": "However the transport cuts the body into chunks, a field read to its end, visited by foreach_entry, or saved (alone, in a request, or from the client to the saved form) has exactly its content or its content followed by one CRLF, never anything else; with two bytes of room in the limits every chunking of a request is saved in full.", "quantifier": "all bodies, chunkings without transient end-of-file, call sequences, limits, environments", "why_tests_cant": "all chunkings and call sequences", "anchors": ["src/server/boundary.rs:BoundaryReader", "src/server/save.rs:SaveBuilder::with_entries", "src/server/mod.rs:foreach_entry"]}
{"id": "C77", "title": "Fields below 1023 bytes are exact for every chunking", "statement": "If every field of a body has fewer than 1023 bytes of content, then however the transport cuts the body into chunks (not returning a transient end-of-file), reading it with any read sizes, and saving it, gives exactly the contents; this covers a form sent by the eager client, the lazy client, and through the mock request and server. 1023 is sharp: with a field of 1023 bytes two chunkings of the same bytes read differently.", "quantifier": "all bodies with such fields, chunkings, read sizes, forms, random streams of the mock", "why_tests_cant": "all chunkings; the tests of the crate only use small random fields", "anchors": ["src/server/boundary.rs:BoundaryReader", "src/server/save.rs:SaveBuilder::with_entries", "src/mock.rs:ServerRequest", "src/local_test.rs"]}
{"id": "C78", "title": "The fuzz target never reports a failure", "statement": "The fuzz target server_basic (read the entries of arbitrary bytes through the mock request, reading some of the fields) returns for every input, every size of the reads and every choice of fields: its panic and its expect are never reached. For any transport and boundary its loop ends, and panics only if the transport itself fails.", "quantifier": "all inputs, transports, boundaries, random streams, sizes of reads, choices of fields", "why_tests_cant": "fuzzing samples inputs; this is for all of them", "anchors": ["fuzz/fuzzers/server_basic.rs:do_fuzz", "src/server/field.rs:read_entry", "src/mock.rs:ServerRequest"]}
{"id": "C79", "title": "The round trip tests of the crate pass for every random choice", "statement": "The tests of src/local_test.rs (eager or lazy client, to the server that iterates in place or by value) pass whatever the generator of test fields draws, in whatever order maps and sets are iterated, and whatever the random sizes of reads and writes are. More generally they pass for every form whose names, contents and media types can be carried, if it has a file in the lazy case. A form with only text fields would make the lazy test fail (the declared content length is wrong), and the generator never draws one. What it can draw is every form of the shape it aims at: one or two names of each kind, with one or two values, in the alphabet and lengths of its strings.", "quantifier": "all random streams, iteration orders, sizes of reads and writes; all forms that fit", "why_tests_cant": "the tests draw one small form per run; they can never draw the form that shows the fault", "anchors": ["src/local_test.rs:do_test", "src/client/lazy.rs:PreparedFields", "src/server/field.rs:ReadEntry"]}
{"id": "C80", "title": "The tool read_file lists the fields of a file", "statement": "The tool src/bin/read_file.rs prints the names of all fields of the body in the file, in order, however its random reader cuts the file, and then ends.", "quantifier": "all files, boundaries, random streams, sizes of reads", "why_tests_cant": "all files and all random cuts", "anchors": ["src/bin/read_file.rs:main", "src/bin/read_file.rs:RandomReader", "src/server/field.rs:read_entry"]}
{"id": "C81", "title": "A body that breaks off does not pass for a whole one", "statement": "If only the first bytes of a body arrive, wherever it is cut: the fields visited by foreach_entry, or saved, are the first fields of the whole body with their headers; what is delivered or saved of a field is a prefix of its content (and at most the CRLF of its delimiter); every field that is read to the end and is followed by another field or the end is complete; and success (Ok, Full) is reported only if all fields and the closing delimiter have arrived. For an upload by the crate's own clients at most the CRLF after the closing delimiter can be missing then.", "quantifier": "all bodies, cuts, chunkings, failures, callbacks, limits", "why_tests_cant": "every cut of every body", "anchors": ["src/server/boundary.rs:consume_boundary", "src/server/boundary.rs:read_to_boundary", "src/server/mod.rs:foreach_entry", "src/server/save.rs:with_entries"]}
{"id": "C82", "title": "The Iron middleware lets a request through with its fields, or refuses it without traces", "statement": "Intercept::before leaves requests that are not multipart/form-data as they are. A form within the limits is let through, and the Entries in the extensions of the request hold exactly its fields, name by name and in order; in particular a form sent by the crate's own client. If it refuses a request, the request is unchanged and so is the file system, and the text of the answer is one of five; it names the limit in decimal, or a field of the form that is larger than the limit, with its file name if there is one.", "quantifier": "all requests, bodies, limits, environments", "why_tests_cant": "Iron's side is never tested; failures of the file system", "anchors": ["src/server/iron.rs:before", "src/server/iron.rs:FileSizeLimitError", "src/server/iron.rs:FileCountLimitError"]}
{"id": "C83", "title": "The example servers echo the form and leave nothing behind", "statement": "For a form within the default limits the five example servers answer 200 with the form as text (every name once with its number of entries, every field with its file name, type and content, in order) and copy this to standard output. Whatever is sent and fails, the file system is as before afterwards. tiny_http and Iron answer 200 only for a complete form, Rocket says if it is not complete. A request that is no form is refused with 400 (hyper: 418) without looking at its body; every other answer than 200 is one of the documented ones. If standard output fails while the form is printed, it has a prefix of the text and the answer is an error of the documented text (hyper breaks off, nickel adds a line to the answer). Every request is answered. (False of the code: tiny_http and Iron panic on 256 fields or a field of more than 8 MiB, since the limits that they say are not set have defaults; hyper and nickel answer 200 without a word when the connection has failed; if standard output takes a part, the answer has bytes twice.)", "quantifier": "all requests, bodies, chunkings, failures", "why_tests_cant": "the examples have no tests; limits are reached with large requests only", "anchors": ["examples/tiny_http.rs:process_request", "examples/iron.rs:process_request", "examples/rocket.rs:process_upload", "examples/hyper_server.rs:process_entries", "examples/nickel.rs:handle_multipart", "src/server/save.rs:SaveBuilder::new", "src/mock.rs:StdoutTee"]}
{"id": "C84", "title": "What a saved field becomes: text, bytes or a file", "statement": "Saving a request keeps a field as text only if the field has no content type or one of type text, and what is kept is then UTF-8; a field with another content type is never kept as text. A field that was saved completely is kept in memory if and only if its content is within both the memory threshold and the size limit; otherwise it is in a file of the save directory and the recorded size is the length of the content. UTF-8 contents of such a text field that fit the memory threshold are kept as text, unless the builder was told to ignore text.", "quantifier": "all bodies, chunkings, content types, limits, failures and outcomes", "why_tests_cant": "the tests save one field of each kind with default limits; that no combination of type, encoding, length, chunk borders and failures leads to another kind needs all of them", "anchors": ["src/server/field.rs:is_text", "src/server/save.rs:with_entries", "src/server/save.rs:with_path", "src/server/save.rs:save_text"]}
{"id": "C85", "title": "What a request can make the server hold", "statement": "Whatever a client sends, however it arrives and whatever fails: the reader never holds as many bytes as the larger of the size the caller asked for, 1024 and twice the delimiter, plus one read; no field name or file name is longer. Saving a request holds in memory at most count_limit times (that size plus the smaller of memory threshold and size limit) and creates at most count_limit files in the save directory of at most size limit plus memory threshold bytes each, besides directories on the way to it. With the default settings and reads of K bytes: fewer than 1024 + K bytes in the reader, 256 * (11 KiB + K) in the result, 256 files of 8 MiB + 10 KiB.", "quantifier": "all bodies, chunkings, call sequences, limits, failures and outcomes", "why_tests_cant": "resource exhaustion needs hostile input; tests use small well-formed bodies", "anchors": ["src/server/boundary.rs:read_to_boundary", "src/server/boundary.rs:set_min_buf_size", "src/server/field.rs:ReadEntry::read_entry", "src/server/save.rs:with_entries", "src/server/save.rs:with_path"]}
{"id": "C86", "title": "The example clients, the middleware example and form_test", "statement": "examples/hyper_client.rs and hyper_reqbuilder.rs: unless they panic (the builder exactly if the file cannot be opened or measured, the other exactly if the file cannot be opened or read, if hyper's request works), a server that receives the request has its three fields, with the contents of the file, whatever boundary is drawn that does not occur in the file. examples/iron_intercept.rs: every request is answered without a panic and leaves the file system as it was; a request that is not a form is told so; a form of fewer than 16 fields of at most 2 MiB is answered with entries that hold exactly its fields; answers have the status 200 (false: no status is set, so Iron sends 404). src/bin/form_test.rs: every request, whatever its type or body, is answered with the whole page, unless the page cannot be read or the client does not take it; then it panics, having sent at most a part of the page.", "quantifier": "all files, random numbers, requests, bodies, chunkings, file systems and failures", "why_tests_cant": "the programs are not tested; the claims are about every file, boundary and request", "anchors": ["examples/hyper_client.rs:write_body", "examples/hyper_reqbuilder.rs:main", "examples/iron_intercept.rs:main", "src/bin/form_test.rs:read_multipart"]}
{"id": "C87", "title": "Any chunking, part two: whole bodies, middleware, servers and clients", "statement": "For every division of a well-formed body into reads: reading all its fields (with any preamble, epilogue and read sizes) gives these fields in order, with their headers and with contents that differ from the ones sent by at most one CRLF appended. The same holds of what the Iron middleware leaves for the handlers, of what the five example servers echo, of what a later call to with_entries saves after a count limit, and of forms of the crate's clients. The middleware and the servers accept every form whose fields leave two bytes of room in the limits; whatever fails, an accepted form is complete, a count error is given only at the limit and a size error only for a field that with two more bytes exceeds the limit; nothing panics.", "quantifier": "all bodies, fields, chunkings, limits, read sizes, file systems and failures", "why_tests_cant": "the surplus depends on where the network cuts the body; tests use one chunking", "anchors": ["src/server/boundary.rs:read_to_boundary", "src/server/save.rs:with_entries", "src/server/iron.rs:Intercept::read_request", "examples/tiny_http.rs:process_request", "examples/rocket.rs:process_upload", "src/client/lazy.rs:send"]}
{"id": "C88", "title": "The finite buffer", "statement": "The 8 KiB buffer under the boundary reader makes no difference: in every history of calls the reader with a buffer of c bytes returns what the reader with unlimited room returns over the same transport with some chunks delivered in pieces (all but the last of a chunk at least as long as the smallest minimum asked for, so that short chunks are not cut), provided c is at least 2048, four times the length of the delimiter and twice every argument of set_min_buf_size; well-formed bodies are then read completely. For longer boundaries this is false: with 8 KiB and a boundary of 3000 bytes a well-formed body is rejected as truncated.", "quantifier": "all capacities, boundaries, transports and histories of calls", "why_tests_cant": "depends on where the data lies in the buffer when a delimiter reaches its end", "anchors": ["src/server/boundary.rs:from_reader", "src/server/boundary.rs:read_to_boundary", "src/server/boundary.rs:set_min_buf_size"]}
{"id": "C89", "title": "The reader is a cursor over the body; its unit tests pass for every chunking", "statement": "For a body whose sections fit into the buffer (each delimiter ends at least 4 bytes before the 1024th byte of its section), every history of read_to_string, consume_boundary and read_to_boundary on a BoundaryReader gets the answers that the bytes before the cursor determine: the content up to the next delimiter, whether a delimiter with CRLF or with dashes follows, the three errors, what is withheld at the end of an unterminated body, and for two successive calls of read_to_boundary the same prefix. Hence the unit tests of boundary.rs and the tests issue_104 and issue_114 succeed for every chunking of their bodies and every size of the reads; and after foreach_entry has succeeded, calling it again succeeds and visits nothing.", "quantifier": "all boundaries, bodies, chunkings, read sizes and histories of calls", "why_tests_cant": "the tests use a slice as the source, or split the body at one place only, and one history each", "anchors": ["src/server/boundary.rs:read_to_boundary", "src/server/boundary.rs:consume_boundary", "src/server/boundary.rs:test_split_boundary", "src/server/mod.rs:issue_104", "src/server/mod.rs:issue_114"]}
{"id": "C90", "title": "The length of a lazy request is a u64", "statement": "Preparing or sending a lazy request whose files, headers and end together have fewer than 2^64 bytes behaves as with an unbounded count. A build with overflow checks panics exactly when the sum leaves the range (over the files before the first that cannot be opened, or with the end of the body) and otherwise behaves the same; a build without checks declares the length modulo 2^64 and does nothing else differently. Hence a successful send of files of truthfully reported length declares the length of the bytes it writes with checks; without checks this is false.", "quantifier": "all forms, reported lengths, sources, boundaries, transports, both kinds of build", "why_tests_cant": "needs files of 2^63 bytes", "anchors": ["src/client/lazy.rs:from_fields", "src/client/lazy.rs:from_path", "src/client/lazy.rs:content_len"]}
{"id": "C91", "title": "Configuration methods", "statement": "Every sequence of setters on SaveBuilder::new and on Intercept::default leaves each setting at the value given last, whatever else is set in between, and at its documented default otherwise (8 MiB, 256 fields, 10 KiB, try text, create_new; 2 MiB, 16 fields, the system's temporary directory, errors on limits); None lifts a limit to the largest u64 or u32. The middleware so configured lets a form below its limits through, with its fields saved in a new directory below the one given last, and refuses a form with as many fields as the limit with an answer that names the limit. A successful send of a lazy request built by any sequence of add calls writes the texts in the order of the calls and then the files and streams in reverse order.", "quantifier": "all sequences of calls, forms, chunkings (not splitting a CRLF after long contents), file systems, random numbers", "why_tests_cant": "each test uses one configuration", "anchors": ["src/server/save.rs:size_limit", "src/server/save.rs:count_limit", "src/server/save.rs:mod_open_opts", "src/server/iron.rs:file_count_limit", "src/client/lazy.rs:add_text", "src/client/lazy.rs:add_stream"]}
{"id": "C92", "title": "Error messages of reading", "statement": "The message of an error of read_entry says what is wrong: for a part whose headers are complete, the first of: no Content-Disposition (followed by all headers, one per line), no parameters (with the value), another type than form-data (with the type), no name parameter (with the parameters), a Content-Type that does not parse (with its value); there is a message exactly if the part is not acceptable, it is determined by the headers, and reading continues after them. If no part follows the delimiter, the message has the two bytes after it in hexadecimal, or says that the body ends there, or before it. For a malformed header block the message names what is malformed (invalid header name, new line or value, or too many headers); for a value that is not UTF-8 or a failing transport it says so; the block is called too long only if it is not complete before the delimiter, the end of the body or the 1024 bytes of the buffer.", "quantifier": "all bodies, chunkings, boundaries, failures (soundness); header blocks of four headers, or faults in them, that fit the buffer (exactness)", "why_tests_cant": "no test looks at a message", "anchors": ["src/server/field.rs:ParseHeaderError", "src/server/field.rs:parse_required", "src/server/field.rs:DisplayHeaders", "src/server/boundary.rs:consume_boundary"]}
{"id": "C93", "title": "What the errors of the lazy client say", "statement": "An error of send() of the lazy client reads 'Error writing field \"name\": ...' exactly if some file cannot be opened or measured; the name is that of the first such field, and nothing has been done with the request. Every other error reads 'Error opening or flushing stream: ...', and then opening, writing to or finishing the stream of the request has failed. (The last part is false of the code: an error while reading the data of a field gives this text too.)", "quantifier": "all forms, sources, requests, failure schedules, random boundaries", "why_tests_cant": "no test makes a lazy request fail; the second text also appears for errors of a field's data", "anchors": ["src/client/lazy.rs:LazyError", "src/client/lazy.rs:send", "src/client/lazy.rs:from_fields"]}
{"id": "C94", "title": "Minimum buffer size", "statement": "After set_min_buf_size(n) while reading a field, fill_buf() returns at least n bytes (or two delimiters' length if that is more) until the end of the field or of the stream. (False of the code: bytes that may be the start of the delimiter are kept back, at most the length of the delimiter and one.) The transport is read only while fewer bytes than that are buffered. The value does not outlive the field: for every new field it is 1024 (or two delimiters) again. The value does not change the data of the field. (False of the code: with a value below 1024 a field that is otherwise read exactly can get a CRLF too many; with a value of at least two more than the length of the content the data is exact for every chunking.)", "quantifier": "all transports and chunkings, boundaries, values of n, histories of calls on earlier fields and on this one", "why_tests_cant": "no test calls set_min_buf_size; the effect on the data needs a chunk border inside a CRLF", "anchors": ["src/server/field.rs:set_min_buf_size", "src/server/boundary.rs:set_min_buf_size", "src/server/boundary.rs:read_to_boundary"]}
{"id": "C95", "title": "Which bodies are safe from a split CRLF", "statement": "For a body in the form of RFC 2046 (a CRLF before every delimiter but the first), a boundary of at most 510 bytes without CR and reads of at least 2 KiB: the fields are read with exactly their data under every division into chunks if and only if every content is shorter than 1023 bytes. For a longer content a wrong division is any with a chunk of at least the minimum buffer size (1024 bytes, or two delimiters) that ends between the CR and the LF of the delimiter after it: then its data always have the CRLF as surplus, whatever the other chunks are, and all other fields differ from their contents at most by such a CRLF.", "quantifier": "all bodies of that form (preambles, numbers of fields, contents, epilogues), boundaries, mime libraries, divisions into chunks, sequences of read sizes", "why_tests_cant": "the equivalence quantifies over all divisions of all bodies; no test has contents of 1023 bytes at a chunk border", "anchors": ["src/server/boundary.rs:read_to_boundary", "src/server/boundary.rs:find_boundary"]}
{"id": "C96", "title": "Saving reports the first failure", "statement": "Whatever fails while a field or a request is saved: the first read of the request body, mkdir, open or write that fails (for reads and writes within a field: with a kind other than Interrupted; a write of zero bytes is a failure) is the last call made, and its kind is the error in the result; a result without an I/O error means that no call failed. An error without a failed call names what is in the way: a file where a directory should be, a directory or a file in the place of the file, no file where one should exist, options that exclude each other, or a malformed body. (False of the code in one case: a save that stops because of the limit on the number of fields first looks for one more entry and drops the error of doing so.)", "quantifier": "all reader states, transports with failures at any place, schedules of failures of mkdir, open and write, file systems, open options, builders, directories, random names, mime libraries", "why_tests_cant": "the tests save to a working file system from a transport that does not fail; which failure is reported depends on the order of all calls", "anchors": ["src/server/save.rs:try_read_buf", "src/server/save.rs:try_write_all", "src/server/save.rs:with_path", "src/server/save.rs:with_entries", "src/server/save.rs:create_dir_all", "src/server/save.rs:with_dir"]}
{"id": "C97", "title": "Which fields can be skipped, and which header blocks are read, whatever the chunks", "statement": "For a body in the form of RFC 2046 whose header blocks end with an empty CRLF line, and a boundary without CR, let M be the minimum buffer size (1024 bytes, or two delimiters). Chunks may have any size, as if the buffer of the reader were unlimited. A handler that only asks for the next entry is told every entry and then the end of the body under every division into chunks if and only if for every field the header block plus the bytes that content and delimiter have in common at their start are fewer than M, and the content, its CRLF, the delimiter and two more bytes fit into M. The tool read_file prints all names and ends well for every file with this body and every sequence of read sizes under the same condition, and only then. A program that reads the data of every field to the end is told the headers of all entries under every division if and only if the first half of the condition holds, whatever its read sizes are. With the buffer the reader really has (8 KiB, or any capacity of at least 2048 bytes and four delimiters) skipping also works under every division for contents that with their CRLF and the delimiter are longer than this buffer.", "quantifier": "all bodies of that form (preambles, numbers of fields, header blocks, contents, epilogues), boundaries, mime libraries, divisions into chunks, read sizes, random draws", "why_tests_cant": "the equivalence quantifies over all divisions of all bodies; the limits depend on the boundary and on how far a content looks like a delimiter", "anchors": ["src/server/boundary.rs:consume_boundary", "src/server/boundary.rs:read_to_boundary", "src/server/field.rs:with_headers", "src/server/field.rs:read_entry", "src/bin/read_file.rs:main", "src/server/boundary.rs:from_reader"]}
{"id": "C98", "title": "Which bodies are saved exactly whatever the chunks", "statement": "For a body in the form of RFC 2046 (a CRLF before every delimiter but the first) and a boundary of at most 510 bytes without CR, a builder whose limits allow the form, a disk that works, and fields that are UTF-8 where the builder tries to keep them as text: save() returns every field with exactly its content under every division into chunks if and only if every content is shorter than 1023 bytes. For a longer content a wrong division is any with a chunk of at least the minimum buffer size (1024 bytes, or two delimiters) that ends between the CR and the LF of the delimiter after it: whenever such a request is saved in full, that field is stored with the CRLF as surplus, in memory or on disk, whatever the limits, the threshold, the text policy, short or interrupted writes and the other chunks are, and all other fields differ from their contents at most by such a CRLF.", "quantifier": "all bodies of that form, boundaries, mime libraries, divisions into chunks, builders with the default open options, directories, random draws, file systems and write schedules", "why_tests_cant": "the equivalence quantifies over all divisions of all bodies and all settings of the builder; no test has contents of 1023 bytes at a chunk border", "anchors": ["src/server/save.rs:try_read_buf", "src/server/save.rs:with_path", "src/server/save.rs:with_entries", "src/server/boundary.rs:read_to_boundary"]}
{"id": "C99", "title": "Saving through the finite buffer", "statement": "The 8 KiB buffer makes no difference to saving either: in every history in which a request is read, fields are saved to paths or writers, and whole requests are saved, in any order, the request behind a buffer of c bytes gives the same answers and leaves the same disk as the request with unlimited room over the same transport with some chunks delivered in pieces, each piece but the last of a chunk at least as long as the smallest minimum asked for (1024 unless set_min_buf_size is called); c must be at least 2048, four times the delimiter and twice every minimum. So a well-formed body is saved field by field, each exact or with the CRLF of the delimiter, completely if nothing fails and the limits leave room; and a form is saved exactly under every division into chunks if and only if all its contents are shorter than 1023 bytes, as without the limit on the buffer.", "quantifier": "all capacities, boundaries, transports with failures, histories of reading and saving, builders, disks and write schedules", "why_tests_cant": "depends on where the data lies in the buffer when the copy loops take it; tests use bodies far below 8 KiB", "anchors": ["src/server/save.rs:try_read_buf", "src/server/save.rs:with_path", "src/server/save.rs:with_entries", "src/server/boundary.rs:read_to_boundary", "src/server/boundary.rs:from_reader"]}
{"id": "C100", "title": "Requests over the limits, whatever the chunks", "statement": "Nothing fails and the body is well formed; it may be divided into chunks in any way. (1) With at least as many fields as the count limit, none of which with two more bytes exceeds the size limit, save() returns a partial result with reason CountLimit and exactly as many fields as the limit, in order, each exact or with one CRLF appended. (2) If the fields before it leave two bytes of room and a field exceeds the size limit by more than the memory threshold (or the limit, if less), save() returns a partial result with reason SizeLimit that names this field, keeps the ones before it and of the field a part of its start, and the reader is left before the next entry. (3) So the strict Iron middleware answers with the count error naming the limit, or with the size error naming the field; a request without a field that is too large is accepted if and only if it has fewer fields than the limit. The lenient one never returns on a request with as many fields as the limit. (4) The example servers for tiny_http and Iron panic on such requests; no server panics on a request within the limits, also if reads, writes or the disk fail.", "quantifier": "all bodies, boundaries, mime libraries, divisions into chunks, limits, thresholds, text policies but Force, directories, random draws, file systems", "why_tests_cant": "whether a field is counted as too large depends on how the copy loops meet the chunk borders; there are no tests of the limits at all", "anchors": ["src/server/save.rs:with_entries", "src/server/save.rs:with_path", "src/server/iron.rs:Intercept::read_request", "src/server/iron.rs:read_request_lenient", "examples/tiny_http.rs:process_request", "examples/iron.rs:process_request"]}
{"id": "C101", "title": "Resuming a partial save, any number of times, whatever the chunks", "statement": "A field can be saved in several attempts, with any builders with the default open options, each going on where the previous one stopped, whether for the size limit, for bad UTF-8 or for an error: what the attempts saved, still readable after the last one, is in order a prefix of the content followed by one CRLF, with gaps only where writing to the destination failed, each gap no longer than the size limit and the memory threshold allow; once an attempt is complete it is the whole content, exact or with one CRLF. Without failures of the destination nothing is lost. If a whole request stops inside a field, the fields before it are saved, the rest of this field can be saved so, and saving the request goes on with the next field, whether or not the attempts reached the end of the field.", "quantifier": "all bodies, boundaries, mime libraries, divisions into chunks, transport failures, builders, numbers of attempts, paths, file systems and write schedules", "why_tests_cant": "bytes in the buffer are consumed before, during or after a failing write depending on the phase; any number of attempts with changing builders is unbounded", "anchors": ["src/server/save.rs:with_path", "src/server/save.rs:try_read_buf", "src/server/save.rs:with_entries", "src/server/save.rs:PartialEntries"]}
{"id": "C102", "title": "What saved fields become, whatever the chunks", "statement": "For every division of a well-formed body into chunks, whatever fails and however the save ends: each field that was saved holds its content, exact or with one CRLF appended. A content with two bytes of room in the size limit and the memory threshold is kept in memory, whatever is kept in memory is within both, and every other field is a file of the directory whose recorded size is that of the file. Kept as text are only contents that are declared text (or not declared) and are UTF-8, under a policy that allows text; such a content is kept as text if the limits leave room for it with two bytes more, and three bytes per 497.", "quantifier": "all bodies, boundaries, mime libraries, divisions into chunks, failures, limits, thresholds, policies, directories, random draws, file systems", "why_tests_cant": "a character or a CRLF divided between chunks is counted twice against the limit; no test divides them", "anchors": ["src/server/save.rs:save_field", "src/server/save.rs:with_path", "src/server/save.rs:save_text", "src/server/save.rs:try_copy_limited", "src/server/field.rs:is_text"]}
{"id": "C103", "title": "Saves at the same time on one disk", "statement": "Any number of fields and requests are saved at once, with files opened by create_new, and their calls of mkdir, open and write happen in any order. Then nothing that was on the disk before changes. A save that is done has the answer, and its files have the contents, of a run on its own with some results of mkdir and open; no two saves write to one file, and what is saved of a request are its fields. The answer is exactly the one of a run alone, whose calls of open fail as its own calls did, and whose calls of mkdir do so too except that there may be more of them, which succeed, for the directories that others had made; without failures of its own the run alone has none. This holds unless a path that the save needs was made by another before its turn; that cannot happen to saves whose possible file names differ, though they may make the same directories. A save that gets its turn again and again comes to an end whatever the others do.", "quantifier": "all numbers and kinds of saves, orders of calls, disks, bodies, chunks, limits, policies, failures of each save, mime libraries", "why_tests_cant": "the orders of the calls of several threads are not under a test's control, and a race shows in a few of them only", "anchors": ["src/server/save.rs:with_path", "src/server/save.rs:with_dir", "src/server/save.rs:with_entries", "src/server/save.rs:try_write_all", "src/server/save.rs:create_dir_all", "src/server/save.rs:rand_filename"]}
{"id": "C104", "title": "Requests with temporary directories at the same time", "statement": "Any number of requests are saved at once with temp or temp_with_prefix, with files opened by create_new; each reads some of its files back, uses its SaveDir and then drops it, deletes it or takes its path, and the calls of mkdir, open, write, read and remove happen in any order (a directory is removed in any number of calls). Then nothing changes outside the directory for temporary files, nor what was in it. A request that is over had the result, and saw the files, of a run on its own in which the disk may have said for some directory names that they exist, and that only if another request tries the same name; all other failures are the ones of its own calls, in their order. So requests whose names differ do not notice each other, whether or not their own calls fail. The new paths of two requests are different, and no request removes a path of another: what a request that keeps its directory has saved, its fields, stays on the disk. What is new on the disk belongs to a request that is not over or does not remove its directory, so when all are over and drop or delete theirs, the disk is as at the start. A request that gets its turn again and again comes to an end.", "quantifier": "all numbers of requests, orders of calls, disks, prefixes, random samples, bodies, chunks, limits, policies, operations and ends of the SaveDir, failures of each request and of its removal, mime libraries", "why_tests_cant": "the orders of the calls of several threads are not under a test's control, and a directory removed under another request shows only when names and times coincide", "anchors": ["src/server/save.rs:temp_with_prefix", "src/server/save.rs:with_temp_dir", "src/server/save.rs:with_entries", "src/server/save.rs:SaveDir", "src/server/save.rs:keep", "src/server/save.rs:into_path", "src/server/save.rs:delete", "src/server/save.rs:rand_filename"]}
{"id": "C105", "title": "Forms uploaded at the same time all arrive", "statement": "Any number of clients, eager or lazy, send forms at once, in any chunks, to requests that are saved with temp_with_prefix at the same time on one disk. If the limits leave room for each form and two bytes, nothing fails (writes may be short or interrupted), the directory names that the requests may try differ, each request's own file names differ, its first directory name is free, and each gets turns again and again, then from some moment on all requests are over with all fields of their form: under each name in order, with their headers, and with contents that read back as those of the form with at most one CRLF as surplus. For a directory that is kept they are still on the disk; if all are dropped or deleted, the disk is as at the start.", "quantifier": "all numbers of requests, forms, bodies of other clients with the same parts, chunks, orders of calls that are fair, disks, prefixes, random samples, limits, mime libraries", "why_tests_cant": "whether all requests come through is a statement about all orders in which their calls may be mixed", "anchors": ["src/server/save.rs:temp_with_prefix", "src/server/save.rs:with_entries", "src/server/save.rs:SaveDir", "src/client/mod.rs:Multipart", "src/server/mod.rs:with_body", "src/lib.rs:random_alphanumeric"]}
{"id": "C106", "title": "Files and streams are dropped as they are read to completion", "statement": "A request prepared by the lazy client holds its files and streams until they are read to the end, and no longer than needed (the documented promise). After any reads with buffers of any sizes, whatever they returned (also errors of the sources, after which the caller goes on), the files and streams still held are the last ones in the order of sending. Of every one that was dropped the whole part has been taken from the body, with all data up to the end of its source. Nothing beyond the part of the first one still held has been taken, and the sources of the ones after it are untouched. When a read with a buffer that is not empty has returned nothing, none is held.", "quantifier": "all forms, mime libraries, guesses, random samples, sequences of buffer sizes, contents and errors of the sources", "why_tests_cant": "when a source is let go depends on how the buffer sizes, the chunks and the errors of the sources fall together; a test sees the bytes of the body, not what is held in the meantime", "anchors": ["src/client/lazy.rs:PreparedFields", "src/client/lazy.rs:from_fields", "src/client/lazy.rs:read"]}
{"id": "C107", "title": "Requests through the Iron middleware at the same time", "statement": "An Iron server runs any number of requests through the Intercept middleware at once, each with its own settings; the handler of an accepted request reads some paths in its directory, then the request is dropped. The calls of mkdir, open, write, read and remove happen in any order (a directory is removed in any number of calls). Then nothing changes outside the directory for temporary files, nor what was in it. A request that is over had the answer, and its handler saw the files, of a run on its own in which the disk may have said for some directory names that they exist, and that only if another request may try the same name; all other failures are the ones of its own calls, in their order. Requests whose names differ do not notice each other, whether or not their own calls fail. The middleware does not panic. A request is accepted, with ThrowError, only with all its fields, which are the ones sent, below the count limit, in a directory multipart-iron and six characters; it is refused for the count or for the size of a field only if its body is over that limit. With Continue the fields are all there, cut at the size limit. What is new on the disk belongs to a request that is not over or whose directory could not be removed, so when all are over, accepted or refused, the disk is as at the start. A request that gets its turn again and again comes to an end, except with Continue and as many fields as the count limit (C47).", "quantifier": "all numbers of requests, orders of calls, disks, settings, random samples, bodies, chunks, failures of each request and of its removal, paths read by the handlers, mime libraries", "why_tests_cant": "the orders of the calls of several server threads are not under a test's control, and a refused request that removes or keeps a directory wrongly shows only when names and times coincide", "anchors": ["src/server/iron.rs:read_request", "src/server/iron.rs:read_request_strict", "src/server/iron.rs:read_request_lenient", "src/server/iron.rs:BeforeMiddleware", "src/server/save.rs:with_temp_dir", "src/server/save.rs:with_entries", "src/server/save.rs:keep_partial", "src/server/save.rs:SaveDir"]}
{"id": "C108", "title": "Forms posted at the same time to a server with the Iron middleware", "statement": "Any number of clients, eager or lazy, send their forms at once to a server with the Intercept middleware, and the requests get them in any pieces, draw different directory names and get turns again and again; the directory for temporary files exists, writes may be short or interrupted, and nothing else fails. Then, if with Continue the fields are fewer than the count limit and below the size limit with two bytes to spare, at some time all the requests are over. One was accepted, with fewer fields than the count limit and exactly the fields of its client, under their names in the order sent, with the contents (at most a CRLF as surplus) in memory or on the disk where its handler can read them; or was refused with the count error, with as many fields as the limit or more; or refused with the size error for a field of its form that with two bytes more is over the limit. The size error is certain if a field is over the limit by more than the memory threshold of the save, the fields before it are below the limit with two bytes to spare and there are fewer of them than the count limit. And the disk is as before the first request.", "quantifier": "all numbers of clients, forms, chunks, settings, random samples, short writes, fair orders of calls, disks, mime libraries", "why_tests_cant": "the crate's tests send one request at a time to no server; the orders of the calls of several requests are not under a test's control", "anchors": ["src/server/iron.rs:read_request", "src/server/iron.rs:read_request_strict", "src/server/iron.rs:read_request_lenient", "src/server/save.rs:with_temp_dir", "src/client/mod.rs:Multipart", "src/client/lazy.rs:send"]}
{"id": "C109", "title": "Requests with and without the Iron middleware at the same time", "statement": "A process handles any number of requests at once, some through the Intercept middleware and some in handlers that save into temporary directories themselves (temp, temp_with_prefix), all in one directory for temporary files. However their calls interleave, nothing in that directory changes but new entries, a request that is over went as on its own disk, except that a directory name may have been taken if another request may try the same one, and the paths of two requests are different. If the handlers use another prefix than multipart-iron, requests of different kinds never meet, whatever they draw: one whose names no other request of its kind tries goes exactly as alone. When all are over and have removed their directories the disk is as before. And when clients, eager or lazy, send forms to both, drawing names that differ within a kind, and all get turns, then at some time each handler has the fields of its form (if its limits have room) and each request through the middleware is accepted with its fields or refused for a limit that they reach.", "quantifier": "all numbers of requests of either kind, bodies, settings, prefixes, random samples, failures of each request's own disk, orders of calls, disks, mime libraries", "why_tests_cant": "the crate's tests handle one request at a time; neither the orders of calls nor the random names are under a test's control", "anchors": ["src/server/save.rs:temp", "src/server/save.rs:temp_with_prefix", "src/server/save.rs:with_temp_dir", "src/server/iron.rs:read_request", "src/server/iron.rs:before"]}
{"id": "C110", "title": "Requests with temporary directories in different places at the same time", "statement": "A process handles any number of requests at once, through the Intercept middleware or not, and each makes its temporary directory in the one of its own settings (temp_dir_path, or a TempDir made by the handler, or that of the system); these exist, several requests may have the same one, and one may lie in another. However their calls interleave, nothing changes but new entries of these directories, a request that is over went as on its own disk, except that a directory name may have been taken if another request may try the same path, and the paths of two requests are different. A request notices at most others of its kind with the same directory: requests with different directories never meet even if they draw the same names, nor do requests of different kinds with different prefixes. When all are over and have removed their directories the disk is as before. And when clients send forms to all of them and all get turns, at some time each handler has the fields of its form (if its limits have room) and each request through the middleware is accepted with its fields or refused for a limit that they reach.", "quantifier": "all numbers of requests of either kind, places of their directories, nested or not, bodies, settings, prefixes, random samples, failures of each request's own disk, orders of calls, disks, mime libraries", "why_tests_cant": "the crate's tests handle one request at a time in one directory; neither the orders of calls nor the random names are under a test's control", "anchors": ["src/server/iron.rs:temp_dir_path", "src/server/iron.rs:read_request", "src/server/save.rs:temp_with_prefix", "src/server/save.rs:with_temp_dir"]}
