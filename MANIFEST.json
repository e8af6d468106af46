{
 "claims": [
  {
   "property": "C01",
   "status": "proved",
   "theorems": [
    "C01_no_panic"
   ],
   "note": "All transports, boundaries and call sequences."
  },
  {
   "property": "C02",
   "status": "proved",
   "theorems": [
    "C02_prefix",
    "C02_end",
    "C02_where"
   ],
   "note": ""
  },
  {
   "property": "C03",
   "status": "partial",
   "theorems": [
    "C03_refuted",
    "C03_unsplit_partial",
    "C03_short_partial",
    "C03_small_reads_partial",
    "C03_whole_body_partial"
   ],
   "note": "Full claim false of the code (CRLF split between chunks at a full buffer): C03_refuted. Holds for contents shorter than 1023 bytes, when no chunk border falls inside the CRLF of a delimiter after a longer one, or for read buffers < 1024. C95 shows that these conditions are sharp."
  },
  {
   "property": "C04",
   "status": "proved",
   "theorems": [
    "C04_no_spurious_end",
    "C04_withheld"
   ],
   "note": ""
  },
  {
   "property": "C05",
   "status": "proved",
   "theorems": [
    "C05_fill_stable",
    "C05_transient_refuted"
   ],
   "note": "For transports that report no transient end of file; for those that do, the slice can change (C05_transient_refuted)."
  },
  {
   "property": "C06",
   "status": "proved",
   "theorems": [
    "C06_classification",
    "C06_unique"
   ],
   "note": ""
  },
  {
   "property": "C07",
   "status": "proved",
   "theorems": [
    "C07_end_final"
   ],
   "note": ""
  },
  {
   "property": "C08",
   "status": "proved",
   "theorems": [
    "C08_end_means_closed",
    "C08_truncated_is_error"
   ],
   "note": ""
  },
  {
   "property": "C09",
   "status": "partial",
   "theorems": [
    "C09_refuted",
    "C09_skip_partial"
   ],
   "note": "Full claim false of the code (C09_refuted); holds under the stated buffer condition."
  },
  {
   "property": "C10",
   "status": "proved",
   "theorems": [
    "C10_retry",
    "C10_retry_ends",
    "C10_lossless"
   ],
   "note": ""
  },
  {
   "property": "C11",
   "status": "partial",
   "theorems": [
    "C11_refuted",
    "C11_retry_partial"
   ],
   "note": "Full claim false of the code for failures in the header phase."
  },
  {
   "property": "C12",
   "status": "proved",
   "theorems": [
    "C12_calls_return",
    "C12_foreach_returns",
    "C12_progress"
   ],
   "note": ""
  },
  {
   "property": "C13",
   "status": "partial",
   "theorems": [
    "C13_sound",
    "C13_refuted",
    "C13_complete_partial"
   ],
   "note": "Soundness for all chunkings; completeness for header blocks up to 1024-|boundary|-3 bytes; false beyond. C97_read gives the exact limit for bodies in the form of RFC 2046."
  },
  {
   "property": "C14",
   "status": "proved",
   "theorems": [
    "C14_as_written",
    "C14_returned"
   ],
   "note": "Any chunking; that the entry is returned needs the block to fit the 1024-byte threshold."
  },
  {
   "property": "C15",
   "status": "partial",
   "theorems": [
    "C15_refuted",
    "C15_reversed_partial",
    "C15_extra_params_partial"
   ],
   "note": "False of the code: filename before name is misread. Extra parameters after name are harmless."
  },
  {
   "property": "C16",
   "status": "proved",
   "theorems": [
    "C16_entry_requirements",
    "C16_otherwise_invalid",
    "C16_exact"
   ],
   "note": ""
  },
  {
   "property": "C17",
   "status": "proved",
   "theorems": [
    "C17_case_insensitive",
    "C17_outcome"
   ],
   "note": ""
  },
  {
   "property": "C18",
   "status": "proved",
   "theorems": [
    "C18_utf8"
   ],
   "note": ""
  },
  {
   "property": "C19",
   "status": "proved",
   "theorems": [
    "C19_wire",
    "C19_succeeds"
   ],
   "note": "Regular client, any short-write schedule."
  },
  {
   "property": "C20",
   "status": "proved",
   "theorems": [
    "C20_prefix"
   ],
   "note": ""
  },
  {
   "property": "C21",
   "status": "proved",
   "theorems": [
    "C21_sized",
    "C21_always"
   ],
   "note": ""
  },
  {
   "property": "C22",
   "status": "partial",
   "theorems": [
    "C22_refuted",
    "C22_lazy_refuted",
    "C22_sized_partial"
   ],
   "note": "Refuted for the regular and the lazy client: send ignores the answer of apply_headers. Holds for SizedRequest."
  },
  {
   "property": "C23",
   "status": "partial",
   "theorems": [
    "C23_refuted",
    "C23_reports_partial"
   ],
   "note": "Refuted: after a failed call later calls still write and send can succeed. Each call does report its own failure, having written a prefix of its field."
  },
  {
   "property": "C24",
   "status": "proved",
   "theorems": [
    "C24_reads",
    "C24_to_end",
    "C24_send",
    "C24_send_succeeds"
   ],
   "note": "Sources whose reads do not fail; for failures see C27 and C61."
  },
  {
   "property": "C25",
   "status": "partial",
   "theorems": [
    "C25_refuted",
    "C25_short_by_texts_partial",
    "C25_no_texts_partial"
   ],
   "note": "Refuted: text fields are not counted. The length falls short of the body by exactly the text fields."
  },
  {
   "property": "C26",
   "status": "partial",
   "theorems": [
    "C26_refuted",
    "C26_nonempty_partial"
   ],
   "note": "Refuted: panics for the empty form. Holds for every other form."
  },
  {
   "property": "C27",
   "status": "partial",
   "theorems": [
    "C27_refuted",
    "C27_loss_partial",
    "C27_bytewise_partial"
   ],
   "note": "Refuted: bytes already in the buffer are lost; send can succeed with a damaged body. A failed call loses fewer bytes than its buffer holds."
  },
  {
   "property": "C28",
   "status": "proved",
   "theorems": [
    "C28_round_trip"
   ],
   "note": "Conditions: representable strings, delimiter absent from the fields, header block within the minimum buffer, and the chunking condition of C03."
  },
  {
   "property": "C29",
   "status": "proved",
   "theorems": [
    "C29_round_trip"
   ],
   "note": "Conditions as for C28; no interrupted source reads (C27)."
  },
  {
   "property": "C30",
   "status": "partial",
   "theorems": [
    "C30_refuted",
    "C30_header_refuted",
    "C30_plain_partial"
   ],
   "note": "Refuted: quotes and line ends in names are not escaped. Holds for plain names."
  },
  {
   "property": "C31",
   "status": "proved",
   "theorems": [
    "C31_write_to",
    "C31_memory",
    "C31_file"
   ],
   "note": ""
  },
  {
   "property": "C32",
   "status": "partial",
   "theorems": [
    "C32_refuted",
    "C32_terminated_partial",
    "C32_any_chunking_partial"
   ],
   "note": "False as stated: a body cut off inside a field is saved as Full (C32_refuted). Proved for fields terminated by a delimiter; a chunk border inside the CRLF of the delimiter can leave that CRLF in the data."
  },
  {
   "property": "C33",
   "status": "partial",
   "theorems": [
    "C33_refuted",
    "C33_write_to_partial",
    "C33_path_partial"
   ],
   "note": "False as stated: the limit is applied separately to the memory part and to the file part. Proved: write_to and memory results respect it; files have at most size_limit + min(size_limit, memory_threshold) bytes."
  },
  {
   "property": "C34",
   "status": "partial",
   "theorems": [
    "C34_refuted",
    "C35_fits_partial",
    "C35_fits_any_chunking_partial",
    "C35_small_body"
   ],
   "note": "False as stated: when a buffer overshoots the limit an empty file is created. A field that fits never touches the disk (C35_fits_partial)."
  },
  {
   "property": "C35",
   "status": "partial",
   "theorems": [
    "C35_bound",
    "C35_refuted",
    "C35_fits_partial",
    "C35_fits_any_chunking_partial",
    "C35_small_body"
   ],
   "note": "The bound is proved. That a field that fits stays off the disk is false when a chunk border splits the CRLF before the delimiter (C35_refuted); proved for the other chunkings, and for all chunkings if the field and that CRLF fit."
  },
  {
   "property": "C36",
   "status": "proved",
   "theorems": [
    "C36_text",
    "C36_whole"
   ],
   "note": ""
  },
  {
   "property": "C37",
   "status": "partial",
   "theorems": [
    "C37_refuted",
    "C37_never_text_partial",
    "C37_short_partial",
    "C37_exact_partial"
   ],
   "note": "False as stated: four or more invalid bytes are saved as Full(Bytes). Proved: never Text; fields of up to three bytes are reported; with room for the content, the error is reported exactly when fewer than four bytes follow the longest valid prefix, and everything is kept as Bytes otherwise. The input may contain interrupted reads."
  },
  {
   "property": "C38",
   "status": "partial",
   "theorems": [
    "C38_refuted",
    "C38_write_to_partial",
    "C38_path_partial"
   ],
   "note": "False as stated: with size_limit = memory_threshold = u64::MAX and four invalid bytes the text phase never ends. Proved in all other cases."
  },
  {
   "property": "C39",
   "status": "partial",
   "theorems": [
    "C39_refuted",
    "C39_write_to_partial",
    "C39_memory_partial",
    "C39_file_partial"
   ],
   "note": "False as stated: a failing first write to the new file. Proved for write_to and for fields that fit in memory."
  },
  {
   "property": "C40",
   "status": "proved",
   "theorems": [
    "C40_no_overwrite",
    "C40_files_kept"
   ],
   "note": ""
  },
  {
   "property": "C41",
   "status": "proved",
   "theorems": [
    "C41_files",
    "C41_names",
    "C41_with_dir"
   ],
   "note": "every path changed by saving did not exist before; it is either directory/(12 alphanumeric characters from the random source) or a created ancestor directory; default open options"
  },
  {
   "property": "C42",
   "status": "proved",
   "theorems": [
    "C42_count_limit"
   ],
   "note": "for count_limit <= u32::MAX (its type); also for keep_partial"
  },
  {
   "property": "C43",
   "status": "partial",
   "theorems": [
    "C43_refuted",
    "C43_exact_partial",
    "C43_full_partial"
   ],
   "note": "false when the number of fields equals count_limit; proved: what is saved is always a prefix with exact contents (all of it if Full), and strictly below the limit the result is Full when nothing fails; no line end of a delimiter split between two reads after a content of 1023 bytes or more"
  },
  {
   "property": "C44",
   "status": "partial",
   "theorems": [
    "C44_refuted",
    "C44_one_lost_partial"
   ],
   "note": "false: the field read just before the limit is noticed is dropped; proved: exactly that one is lost"
  },
  {
   "property": "C45",
   "status": "proved",
   "theorems": [
    "C45_grouping",
    "C45_entries"
   ],
   "note": "any starting entries; order of arrival, no empty vector, distinct names, saturating count"
  },
  {
   "property": "C46",
   "status": "partial",
   "theorems": [
    "C46_no_panic",
    "C46_ends",
    "C46_outcome",
    "C46_count",
    "C46_count_only",
    "C46_size_only",
    "C46_size_refuted",
    "C46_size_partial",
    "C46_within",
    "C46_accepted"
   ],
   "note": "False for the size limit: a field of up to twice the limit is accepted (the same fault as C35). The count limit, the error cases, termination and absence of panics are proved."
  },
  {
   "property": "C47",
   "status": "partial",
   "theorems": [
    "C47_refuted",
    "C47_never_ends",
    "C47_ends_partial",
    "C47_result_partial",
    "C47_truncation_refuted"
   ],
   "note": "False: the loop never ends once the count limit is reached. Below the limit it ends and keeps every field, oversized ones cut to a prefix."
  },
  {
   "property": "C48",
   "status": "partial",
   "theorems": [
    "C48_refuted",
    "C48_errors_partial"
   ],
   "note": "False as stated: Partial(SizeLimit) gives Ok."
  },
  {
   "property": "C49",
   "status": "partial",
   "theorems": [
    "C49_refuted",
    "C49_parent_partial"
   ],
   "note": "False as stated: set_file_name replaces the last component of the temporary directory."
  },
  {
   "property": "C50",
   "status": "partial",
   "theorems": [
    "C50_hyper_partial",
    "C50_hyper_refuted",
    "C50_iron_partial",
    "C50_iron_refuted",
    "C50_nickel_partial",
    "C50_nickel_refuted",
    "C50_tiny_http_partial",
    "C50_tiny_http_refuted",
    "C50_tiny_http_plain_partial",
    "C50_own_client",
    "C50_from_request",
    "C50_switch",
    "C50_round_trip"
   ],
   "note": "False for each integration: hyper does not see the boundary utf-8, iron ignores the method, nickel method and type, tiny_http both as well as case and quotes. Each is characterised exactly; requests of the crate's own client are recognised by all four. The header parser of hyper is not modelled."
  },
  {
   "property": "C51",
   "status": "proved",
   "theorems": [
    "C51_inplace"
   ],
   "note": ""
  },
  {
   "property": "C52",
   "status": "partial",
   "theorems": [
    "C52_refuted",
    "C52_stdout_partial",
    "C52_whole_partial",
    "C52_repeats_partial"
   ],
   "note": "Refuted: the inner writer gets write_all of the whole buffer on every call, so a short write of stdout repeats the rest. Exact when stdout takes everything at once; in general the data plus the repeated tails."
  },
  {
   "property": "C53",
   "status": "partial",
   "theorems": [
    "C53_readable",
    "C53_refuted"
   ],
   "note": "Proved for the default open options; false with mod_open_opts options that reuse a file without truncating it."
  },
  {
   "property": "C54",
   "status": "proved",
   "theorems": [
    "C54_dropped",
    "C54_kept",
    "C54_deleted",
    "C54_observed",
    "C54_saving",
    "C54_with_dir",
    "C54_temp",
    "C54_outside"
   ],
   "note": "remove_dir_all by contract; its failure on drop is ignored as in the crate."
  },
  {
   "property": "C55",
   "status": "partial",
   "theorems": [
    "C55_refuted",
    "C55_preamble_epilogue_partial"
   ],
   "note": "False for all chunkings: a preamble moves the chunk borders and with them the fault of C03. Proved under the C03 side condition on chunk borders or read sizes."
  },
  {
   "property": "C56",
   "status": "proved",
   "theorems": [
    "C56_boundary",
    "C56_alphanumeric",
    "C41_names"
   ],
   "note": ""
  },
  {
   "property": "C57",
   "status": "partial",
   "theorems": [
    "C57_refuted",
    "C57_text_partial"
   ],
   "note": "False as stated: the bytes of a character cut by a buffer border are counted twice. Proved when the limits leave room for three more bytes per 497 (none for contents below that length); the input may contain interrupted reads."
  },
  {
   "property": "C58",
   "status": "partial",
   "theorems": [
    "C58_refuted",
    "C58_save_succeeds_partial",
    "C58_any_chunking_partial"
   ],
   "note": "False for all chunkings (the fault of C03). Proved for bodies with no line end split between two reads after a content of 1023 bytes or more, and for all chunkings with at most that CRLF as surplus; not for force_text; size limit or threshold below u64::MAX unless text is ignored. The input may contain interrupted reads."
  },
  {
   "property": "C59",
   "status": "partial",
   "theorems": [
    "C59_refuted",
    "C59_emptied_partial"
   ],
   "note": "Refuted: the form is always emptied and a second send panics."
  },
  {
   "property": "C60",
   "status": "proved",
   "theorems": [
    "C60_named",
    "C60_only_then",
    "C60_send"
   ],
   "note": ""
  },
  {
   "property": "C61",
   "status": "proved",
   "theorems": [
    "C61_prefix",
    "C61_terminates"
   ],
   "note": ""
  },
  {
   "property": "C62",
   "status": "proved",
   "theorems": [
    "C62_write_all",
    "C62_write",
    "C62_client",
    "C62_client_sized",
    "C62_server",
    "C62_round_trip"
   ],
   "note": ""
  },
  {
   "property": "C63",
   "status": "proved",
   "theorems": [
    "C63_nothing_left"
   ],
   "note": "Well-formed file systems; the removal of the directory succeeds."
  },
  {
   "property": "C64",
   "status": "partial",
   "theorems": [
    "C64_refuted",
    "C64_existing_partial"
   ],
   "note": "False: only the temporary directory itself is created. Holds if the parent exists."
  },
  {
   "property": "C65",
   "status": "proved",
   "theorems": [
    "C65_headers"
   ],
   "note": "Display of mime 0.2 by contract."
  },
  {
   "property": "C66",
   "status": "partial",
   "theorems": [
    "C66_to_end",
    "C66_content_partial",
    "C66_string_partial",
    "C66_refuted"
   ],
   "note": "Termination, no loss and no panic hold in full; the exact content needs the condition of C03 on the chunking or buffers below 1024 bytes (counterexample: C66_refuted). The growth policy of Vec is abstracted to arbitrary buffer sizes."
  },
  {
   "property": "C67",
   "status": "partial",
   "theorems": [
    "C67_open",
    "C67_prefix",
    "C67_complete",
    "C67_no_panic",
    "C67_saved_partial"
   ],
   "note": "The claims about the reader hold in full; reading back the content of the field inherits the chunking condition of C03 (C32). File reads and buf_redux's BufReader by contract."
  },
  {
   "property": "C68",
   "status": "partial",
   "theorems": [
    "C68_zero_refuted",
    "C68_zero_partial",
    "C68_zero_file_partial",
    "C68_max_refuted",
    "C68_max_partial"
   ],
   "note": "False: with 0 an empty field stays in memory; with u64::MAX a field above the size limit is written to a file. Proved: with 0 nothing non-empty stays in memory; with u64::MAX nothing is written if the field is within the size limit."
  },
  {
   "property": "C69",
   "status": "partial",
   "theorems": [
    "C69_client_partial",
    "C69_lazy_partial",
    "C69_refuted"
   ],
   "note": "Holds if no chunk border at the server splits the CRLF of a delimiter after a field of 1023 bytes or more; otherwise false (C69_refuted, from C03). For the lazy client in its wire order."
  },
  {
   "property": "C70",
   "status": "partial",
   "theorems": [
    "C70_request_partial",
    "C70_error",
    "C70_round_trip_partial",
    "C70_refuted"
   ],
   "note": "False: with text fields the declared size is too small by exactly these, and an empty form panics; the rest holds. hyper itself is not modelled."
  },
  {
   "property": "C71",
   "status": "partial",
   "theorems": [
    "C71_saved",
    "C71_still_saved",
    "C71_written",
    "C71_still_written",
    "C71_any_interruptions",
    "C71_request_refuted"
   ],
   "note": "Holds in full for saving one field (with_path, write_to). False for whole requests: an interrupted read while a delimiter or a header is looked for stops the saving (C71_request_refuted)."
  },
  {
   "property": "C72",
   "status": "partial",
   "theorems": [
    "C72_refuted",
    "C72_error_partial",
    "C72_field_partial",
    "C72_request_partial"
   ],
   "note": "False: when moving the part held in memory to a file fails, these bytes are lost (C72_refuted). Proved: nothing else is lost or repeated, the loss is bounded by the memory limit, and the request continues with the following fields; under the chunking condition of C03."
  },
  {
   "property": "C73",
   "status": "partial",
   "theorems": [
    "C73_in_order",
    "C73_data_partial",
    "C73_refuted",
    "C73_all_partial"
   ],
   "note": "Order and headers hold in full; the data under the chunking condition of C03. Success is false if the callback leaves more than a buffer unread (C73_refuted, the fault of C09); proved if each visited field is read to its end or is short."
  },
  {
   "property": "C74",
   "status": "partial",
   "theorems": [
    "C74_by_value",
    "C74_again",
    "C74_entry",
    "C74_save",
    "C74_map",
    "C74_entries",
    "C74_reason",
    "C74_message_refuted"
   ],
   "note": "All agreements hold in full. The message of ReadEntryResult::unwrap contains a literal {:?} (C74_message_refuted). How Debug shows an error is not modelled."
  },
  {
   "property": "C75",
   "status": "proved",
   "theorems": [
    "C75_listing",
    "C75_data",
    "C75_succeeds",
    "C75_request_partial"
   ],
   "note": "For all formatters (Debug and Display of the standard library are parameters); file reads by contract (reads_files). C75_request_partial connects it with saving, under the chunking condition of C43."
  },
  {
   "property": "C76",
   "status": "proved",
   "theorems": [
    "C76_read",
    "C76_to_end",
    "C76_saved",
    "C76_read_back",
    "C76_foreach",
    "C76_request",
    "C76_request_full",
    "C76_upload"
   ],
   "note": "The form of C02, C32, C43, C66, C69 and C73 that needs no condition on the chunking: exact up to one CRLF (C03_refuted shows that the surplus occurs)."
  },
  {
   "property": "C77",
   "status": "proved",
   "theorems": [
    "C77_reads",
    "C77_same",
    "C77_longer_refuted",
    "C77_field",
    "C77_saved",
    "C77_client",
    "C77_lazy",
    "C77_mock"
   ],
   "note": "C77_longer_refuted shows the bound is sharp. Transport without transient end-of-file; saving under the conditions of C43/C69."
  },
  {
   "property": "C78",
   "status": "proved",
   "theorems": [
    "C78_loop",
    "C78_fuzz",
    "C78_failing_refuted"
   ],
   "note": "C78_failing_refuted: with a transport that fails inside a field the expect is reached (the mock request of the target never fails)."
  },
  {
   "property": "C79",
   "status": "proved",
   "theorems": [
    "C79_passes",
    "C79_texts_only",
    "C79_generated",
    "C79_every_form",
    "C79_tests"
   ],
   "note": "C79_texts_only shows that the condition on files in the lazy case is needed; C79_tests is for the generated forms and needs no such condition."
  },
  {
   "property": "C80",
   "status": "partial",
   "theorems": [
    "C80_in_order",
    "C80_lists_partial",
    "C80_refuted"
   ],
   "note": "C80_refuted: a field that does not fit into the buffer makes the tool panic, since it never reads the fields (the fault of C09). Proved: the names printed are the first names in order for every file; all of them if every field has at most 1016 - |boundary| bytes. C97_file gives the exact limit for bodies in the form of RFC 2046."
  },
  {
   "property": "C81",
   "status": "proved",
   "theorems": [
    "C81_indistinguishable",
    "C81_visits",
    "C81_saved",
    "C81_last_incomplete",
    "C81_upload",
    "C81_upload_lazy"
   ],
   "note": "C81_last_incomplete shows why the last field is excepted: a field in which the body breaks off is among the entries of the partial result as if it were complete (compare C32_refuted)."
  },
  {
   "property": "C82",
   "status": "partial",
   "theorems": [
    "C82_other_requests",
    "C82_accepted_partial",
    "C82_refused",
    "C82_text_partial",
    "C82_own_client_partial",
    "C82_complete_partial"
   ],
   "note": "Missing: accepted forms need bodies without a break inside the CRLF of a delimiter after long contents (exact_chunks), a parsed content type in canonical form and no other Entries in the extensions; for Intercepts that continue on limits see C47."
  },
  {
   "property": "C83",
   "status": "partial",
   "theorems": [
    "C83_refuses",
    "C83_status",
    "C83_echo_partial",
    "C83_clean",
    "C83_complete_partial",
    "C83_crash_count",
    "C83_crash_size",
    "C83_no_crash_partial",
    "C83_stdout_partial",
    "C83_answers_refuted",
    "C83_hidden_refuted",
    "C83_duplicated_refuted"
   ],
   "note": "C83_crash_count/_size: tiny_http and Iron panic on every form of 256 or more fields, or with a field longer than 8 MiB + 10 KiB. C83_hidden_refuted: hyper and nickel answer 200 and show nothing when the connection failed. C83_duplicated_refuted: bytes twice in the answer if standard output takes a part. Proved with exact_chunks; C83_complete and C83_echo if standard output takes everything at once; C83_stdout for every standard output (what it gets and which answer is given, but not the body of the answer)."
  },
  {
   "property": "C84",
   "status": "partial",
   "theorems": [
    "C84_text_only",
    "C84_kinds_partial"
   ],
   "note": "C84_text_only is for all bodies, chunkings and failures. Missing in C84_kinds_partial: a text that fits but has not the room of C57 may be kept as bytes (C57_refuted); a line end split between two reads after long contents (C03)."
  },
  {
   "property": "C85",
   "status": "proved",
   "theorems": [
    "C85_buffer",
    "C85_saving",
    "C85_default"
   ],
   "note": "The bytes held in the buffer are counted, not its capacity. Files may exceed the size limit by the memory threshold: that is the fault of C33."
  },
  {
   "property": "C86",
   "status": "partial",
   "theorems": [
    "C86_client_panics",
    "C86_client_partial",
    "C86_builder_panics",
    "C86_builder_partial",
    "C86_intercept_ends",
    "C86_intercept_clean",
    "C86_intercept_other",
    "C86_intercept_form_partial",
    "C86_never_200",
    "C86_status_refuted",
    "C86_form_test",
    "C86_form_test_fails"
   ],
   "note": "C86_status_refuted/C86_never_200: the middleware example never answers 200, since neither it nor the middleware sets a status and Iron then sends 404. Missing in the three partial theorems: a line end of a delimiter split between two reads after long contents (C03); the server side of the clients saves with the default limits."
  },
  {
   "property": "C87",
   "status": "proved",
   "theorems": [
    "C87_read_all",
    "C87_strict",
    "C87_within",
    "C87_lenient_ends",
    "C87_lenient",
    "C87_middleware",
    "C87_middleware_says",
    "C87_resume",
    "C87_echo",
    "C87_complete",
    "C87_lazy",
    "C87_own_client",
    "C87_client"
   ],
   "note": "The exact versions of these claims (C46, C47, C55, C82, C83, C86) need a condition on the chunking, see C03; here there is none, and the contents may have one CRLF as surplus. A delimiter may of course not occur in a content. Completeness with LimitBehavior::Continue only below the count limit (C47)."
  },
  {
   "property": "C88",
   "status": "proved",
   "theorems": [
    "C88_history",
    "C88_cuts",
    "C88_read_all",
    "C88_long_refuted"
   ],
   "note": "buf_redux is not part of the repository; its policy and buffer are modelled after their documentation (Buffer.v). C88_long_refuted is the part of the claim about longer boundaries."
  },
  {
   "property": "C89",
   "status": "proved",
   "theorems": [
    "C89_cursor",
    "C89_tests",
    "C89_peeks",
    "C89_no_boundary",
    "C89_issue_104",
    "C89_again",
    "C89_issue_114"
   ],
   "note": "For longer sections see C03 and C73_refuted: a CRLF may be delivered with the content, and a delimiter seen by read_to_boundary at the end of the buffer is an error for consume_boundary. read_to_string is modelled without its check for UTF-8 (see C66)."
  },
  {
   "property": "C90",
   "status": "proved",
   "theorems": [
    "C90_wraps",
    "C90_checked",
    "C90_in_range",
    "C90_send",
    "C90_send_succeeds",
    "C90_release_refuted"
   ],
   "note": "C90_release_refuted is the part of the claim about builds without checks. Text fields are never counted (C25), so C90_send is about forms of files."
  },
  {
   "property": "C91",
   "status": "proved",
   "theorems": [
    "C91_save",
    "C91_options",
    "C91_middleware",
    "C91_lazy"
   ],
   "note": "For other chunkings see C87; for LimitBehavior::Continue see C47; for the limits themselves C35, C42 and C46. C91_lazy assumes sources without interrupted reads (C61)."
  },
  {
   "property": "C92",
   "status": "proved",
   "theorems": [
    "C92_agrees",
    "C92_sound",
    "C92_exact",
    "C92_unique",
    "C92_delimiter",
    "C92_block",
    "C92_block_exact",
    "C92_fault_unique",
    "C92_fault_excluded"
   ],
   "note": "Display of errors of the transport and of Utf8Error is a parameter; that of httparse's errors is taken from its source. C92_exact and C92_block_exact have the bounds of C16_exact."
  },
  {
   "property": "C93",
   "status": "partial",
   "theorems": [
    "C93_says",
    "C93_stream_partial",
    "C93_blames_refuted"
   ],
   "note": "False: an error in the data of a field is reported without the field as an error of the stream. Proved: which text is given for which error, and that the text for the stream is right if no source fails. Display and Debug of strings and of io::Error are parameters."
  },
  {
   "property": "C94",
   "status": "partial",
   "theorems": [
    "C94_min_partial",
    "C94_min_refuted",
    "C94_reads",
    "C94_quiet",
    "C94_quiet_refuted",
    "C94_reset",
    "C94_data_partial",
    "C94_data_refuted"
   ],
   "note": "False: fill_buf can return fewer bytes than the minimum, again and again, with more of the field to come; with n below two delimiters the transport is read although n bytes are buffered; lowering the minimum can add a CRLF to the data (C03). Proved: how far below the minimum the slice can be, that the transport is not read while the minimum in force is buffered, the reset for every field, and exact data for every content of at most two bytes less than the minimum. Buffers that grow beyond the 8 KiB of buf_redux (minimum above 4096) are outside the contract of fill_buf in Io.v."
  },
  {
   "property": "C95",
   "status": "proved",
   "theorems": [
    "C95_exactly",
    "C95_surplus"
   ],
   "note": ""
  },
  {
   "property": "C96",
   "status": "partial",
   "theorems": [
    "C96_field",
    "C96_writer",
    "C96_request",
    "C96_request_dir",
    "C96_count_refuted"
   ],
   "note": "False for saves that reach the limit on the number of fields (with_entries asks for the next entry before it looks at the count): the error is dropped (C96_count_refuted). C96_request proves the claim for all other results, and for that one that at most this one failed read is passed over. The errno of obstructions is the contract of Fs.v."
  },
  {
   "property": "C97",
   "status": "proved",
   "theorems": [
    "C97_exactly",
    "C97_file",
    "C97_read",
    "C97_buffer"
   ],
   "note": "The only-if parts need chunks as long as the field; with the finite buffer (C97_buffer) they are only possible up to its size."
  },
  {
   "property": "C98",
   "status": "proved",
   "theorems": [
    "C98_exactly",
    "C98_surplus"
   ],
   "note": "The equivalence leaves out text fields that are not UTF-8: there the copying closure takes less than a buffer, and the limit depends on the threshold. C98_surplus needs UTF-8 only of the field it is about."
  },
  {
   "property": "C99",
   "status": "proved",
   "theorems": [
    "C99_history",
    "C99_request",
    "C99_full",
    "C99_exactly"
   ],
   "note": "buf_redux by its documented behaviour, as in C88. C99_exactly as C98 without text fields that are not UTF-8."
  },
  {
   "property": "C100",
   "status": "proved",
   "theorems": [
    "C100_count",
    "C100_size",
    "C100_strict_count",
    "C100_strict_decides",
    "C100_strict_size",
    "C100_never_ends",
    "C100_crash_count",
    "C100_crash_size",
    "C100_no_crash"
   ],
   "note": "Fields that exceed the size limit by two bytes or less, or by at most the threshold, are left open here: whether they are refused depends on the chunks (C46_size_refuted, C95)."
  },
  {
   "property": "C101",
   "status": "proved",
   "theorems": [
    "C101_field",
    "C101_lossless",
    "C101_request"
   ],
   "note": "Default open options. A destination failure loses the bytes that were taken from the buffer for the failing write; the bound on the loss is part of the theorem."
  },
  {
   "property": "C102",
   "status": "proved",
   "theorems": [
    "C102_kinds"
   ],
   "note": "The room for text counts characters divided between buffers twice, as the code does. The size of the file needs contents of less than 2^64 bytes."
  },
  {
   "property": "C103",
   "status": "proved",
   "theorems": [
    "C103_alone",
    "C103_saved",
    "C103_clash",
    "C103_independent",
    "C103_fair"
   ],
   "note": "Nobody removes or renames here; for temporary directories see C104. Calls are atomic. The open options must have create_new, the default; without it two saves of one path write into the same file."
  },
  {
   "property": "C104",
   "status": "proved",
   "theorems": [
    "C104_alone",
    "C104_independent",
    "C104_clear",
    "C104_seen",
    "C104_fair"
   ],
   "note": "Calls are atomic; the removal of a directory is any number of calls that each remove some of the paths. The open options must have create_new, the default. A removal that fails must leave no path without the directories above it. The directory for temporary files must exist, and nothing but the lives writes in it."
  },
  {
   "property": "C105",
   "status": "proved",
   "theorems": [
    "C105_arrives",
    "C105_crowd"
   ],
   "note": "For every chunking, so the saved contents may have the CRLF of the delimiter as surplus (C76). No statement about how likely it is that directory names differ."
  },
  {
   "property": "C106",
   "status": "proved",
   "theorems": [
    "C106_held"
   ],
   "note": "What an Err of a read has already put in the buffer is counted as taken (C27)."
  },
  {
   "property": "C107",
   "status": "proved",
   "theorems": [
    "C107_alone",
    "C107_independent",
    "C107_clear",
    "C107_answer",
    "C107_fair",
    "C107_ends"
   ],
   "note": "For every chunking, so a content may have the CRLF of the delimiter as surplus, and the size limit is met with it (C87). With Continue and as many fields as the count limit the middleware does not end (C47); in the model such a request ends with OutOfFuel, and nothing is said about its directory. Calls are atomic. A removal that fails must leave no path without the directories above it."
  },
  {
   "property": "C108",
   "status": "proved",
   "theorems": [
    "C108_decided",
    "C108_crowd"
   ],
   "note": "For every chunking, so a content may have the CRLF of the delimiter as surplus (C76). With Continue and as many fields as the count limit the middleware does not end (C47); the theorem excludes that, and fields over the size limit with Continue. Whether a field between the limit less two bytes and the limit plus the memory threshold is refused depends on the pieces. No statement about how likely it is that directory names differ."
  },
  {
   "property": "C109",
   "status": "proved",
   "theorems": [
    "C109_alone",
    "C109_independent",
    "C109_kinds",
    "C109_clear",
    "C109_fair",
    "C109_crowd"
   ],
   "note": "C103 to C108 are about requests of one kind. A handler that uses the prefix of the middleware is covered by C109_alone and C109_independent only. As in C108, with Continue a form with as many fields as the count limit is excluded (C47)."
  },
  {
   "property": "C110",
   "status": "proved",
   "theorems": [
    "C110_alone",
    "C110_independent",
    "C110_strangers",
    "C110_clear",
    "C110_crowd"
   ],
   "note": "Generalizes C109, where all have one directory. The directories in which the temporary ones are made exist at the start; one inside the temporary directory of another request is not covered. That requests get to their end is C109_fair, which is about any directories. As in C108, with Continue a form with as many fields as the count limit is excluded (C47)."
  }
 ]
}