{
 "claims": [
  {
   "property": "C01",
   "status": "proved",
   "theorems": [
    "C01_encode_decode",
    "C01_complete"
   ],
   "note": "Exact characterisation: encodes (Asm/Spec.v) is sound and complete for round-tripping."
  },
  {
   "property": "C02",
   "status": "proved",
   "theorems": [
    "C02_decode_encode",
    "C02_decode_errors"
   ],
   "note": "Re-encoding reproduces the bytes iff the first word is not lossy (exactly identified); all decode errors characterised."
  },
  {
   "property": "C03",
   "status": "proved",
   "theorems": [
    "C03_size",
    "C03_stream_size"
   ],
   "note": ""
  },
  {
   "property": "C04",
   "status": "proved",
   "theorems": [
    "C04_decodes_encodings",
    "C04_total",
    "C04_all_input",
    "C04_truncated"
   ],
   "note": ""
  },
  {
   "property": "C05",
   "status": "proved",
   "theorems": [
    "C05_SetMode",
    "C05_SetSize",
    "C05_SetAtomicOp",
    "C05_SetALUOp",
    "C05_SetSource",
    "C05_SetJumpOp"
   ],
   "note": ""
  },
  {
   "property": "C06",
   "status": "partial",
   "theorems": [
    "C06_decoded_atomics_partial",
    "C06_constructor_wire",
    "C06_constructors_lose_operation_refuted"
   ],
   "note": "The property is false of the code: Marshal computes the immediate before folding the atomic operation into Constant. Proved: what the constructors really write, that every non-Add operation decodes as Add (refutation), and the positive statement for decoded atomics."
  },
  {
   "property": "C07",
   "status": "proved",
   "theorems": [
    "C07_references_land",
    "C07_others_unchanged",
    "C07_errors"
   ],
   "note": "Stated on the bytes written; for displacements that fit the field (see C51)."
  },
  {
   "property": "C08",
   "status": "proved",
   "theorems": [
    "C08_packing",
    "C08_LoadMapValue",
    "C08_stream",
    "C08_closed_map"
   ],
   "note": ""
  },
  {
   "property": "C09",
   "status": "proved",
   "theorems": [
    "C09_tag_ignores_maps",
    "C09_hashed_bytes",
    "C09_HasTag"
   ],
   "note": "For arbitrary hash functions."
  },
  {
   "property": "C10",
   "status": "proved",
   "theorems": [
    "C10_iterator"
   ],
   "note": ""
  },
  {
   "property": "C11",
   "status": "proved",
   "theorems": [
    "C11_AssociateMap"
   ],
   "note": ""
  },
  {
   "property": "C12",
   "status": "proved",
   "theorems": [
    "C12_SymbolOffsets",
    "C12_ReferenceOffsets",
    "C12_FunctionReferences"
   ],
   "note": ""
  },
  {
   "property": "C13",
   "status": "proved",
   "theorems": [
    "C13_metadata_is_a_persistent_map"
   ],
   "note": "Heap-backed linked list refines independent finite maps for every history of Set and copies."
  },
  {
   "property": "C14",
   "status": "proved",
   "theorems": [
    "C14_roundtrip",
    "C14_injective",
    "C14_calls"
   ],
   "note": ""
  },
  {
   "property": "C15",
   "status": "proved",
   "theorems": [
    "C15_drain_exact",
    "C15_concurrent_in_order",
    "C15_concurrent_payload_stable",
    "C15_concurrent_eor"
   ],
   "note": "Sequential drain (Reader.ReadInto) and all interleavings with BPF producers (Lease.ReadSample/Commit)."
  },
  {
   "property": "C16",
   "status": "proved",
   "theorems": [
    "C16_any_content",
    "C16_only_commit_publishes"
   ],
   "note": ""
  },
  {
   "property": "C17",
   "status": "proved",
   "theorems": [
    "C17_one_lease_at_a_time",
    "C17_released_at_most_once",
    "C17_no_lease_runs_after_release",
    "C17_no_lease_starts_after_release",
    "C17_release_outside_lease",
    "C17_close_proceeds",
    "C17_close_idempotent"
   ],
   "note": ""
  },
  {
   "property": "C18",
   "status": "partial",
   "theorems": [
    "C18_ringbuf_error_exactly_once",
    "C18_ringbuf_drained_before_error",
    "C18_ringbuf_nothing_lost",
    "C18_ringbuf_pending_error_not_stuck",
    "C18_perf_error_exactly_once",
    "C18_perf_drained_before_error",
    "C18_perf_nothing_lost",
    "C18_perf_overwritable_refuted"
   ],
   "note": "Proved for ringbuf and for non-overwritable perf readers; refuted for an overwritable perf reader resumed during a read."
  },
  {
   "property": "C19",
   "status": "proved",
   "theorems": [
    "C19_any_chunking",
    "C19_read_full",
    "C19_published_tail"
   ],
   "note": ""
  },
  {
   "property": "C20",
   "status": "proved",
   "theorems": [
    "C20_records_in_order",
    "C20_next_record",
    "C20_drain",
    "C20_unknown_event"
   ],
   "note": ""
  },
  {
   "property": "C21",
   "status": "proved",
   "theorems": [
    "C21_drains_disjoint",
    "C21_region",
    "C21_truncated_record_dropped"
   ],
   "note": ""
  },
  {
   "property": "C22",
   "status": "proved",
   "theorems": [
    "C22_buffer_size"
   ],
   "note": "Go's float64 Pow/Ceil/Log2 is modelled by the exact logarithm."
  },
  {
   "property": "C23",
   "status": "partial",
   "theorems": [
    "C23_slots_partial",
    "C23_slots_refuted",
    "C23_pause_clears"
   ],
   "note": "Slots are right when the online CPUs come first; refuted when an offline CPU precedes an online one."
  },
  {
   "property": "C24",
   "status": "proved",
   "theorems": [
    "C24_round_trip",
    "C24_offsets"
   ],
   "note": "For tables below 4 GiB and every map iteration order."
  },
  {
   "property": "C25",
   "status": "proved",
   "theorems": [
    "C25_accepts",
    "C25_lookup",
    "C25_split",
    "C25_cached"
   ],
   "note": ""
  },
  {
   "property": "C26",
   "status": "proved",
   "theorems": [
    "C26_getters",
    "C26_setters",
    "C26_get_set",
    "C26_int"
   ],
   "note": ""
  },
  {
   "property": "C27",
   "status": "partial",
   "theorems": [
    "C27_header",
    "C27_sections",
    "C27_large_blob_refuted"
   ],
   "note": "Proved for blobs below 4 GiB; refuted for larger blobs, where section bounds wrap in 32 bits and the loader panics."
  },
  {
   "property": "C28",
   "status": "proved",
   "theorems": [
    "C28_scan",
    "C28_lossless",
    "C28_encoded"
   ],
   "note": ""
  },
  {
   "property": "C29",
   "status": "proved",
   "theorems": [
    "C29_round_trip",
    "C29_refuted_wide_int",
    "C29_refuted_bitfield_offset",
    "C29_refuted_vlen"
   ],
   "note": "For every history of Add/addString calls over a finite, possibly cyclic heap of types the wire format can hold (spec predicate `encodable`), Marshal succeeds, the blob (if < 4 GiB) loads, and every ID returned by Add denotes, after any history of lookups, a graph isomorphic to the one added. Options nil, no deduplication. The refuted theorems exhibit types outside `encodable` which are silently changed."
  },
  {
   "property": "C30",
   "status": "proved",
   "theorems": [
    "C30_add",
    "C30_dense",
    "C30_stable",
    "C30_records",
    "C30_refuted_placeholder",
    "C30_refuted_decl_tag"
   ],
   "note": "IDs are the positions of first addition; the numbering used by Marshal extends them, is injective, and record i describes type i (with decl tags as extra records and no other records)."
  },
  {
   "property": "C31",
   "status": "proved",
   "theorems": [
    "C31_terminates",
    "C31_terminates_bytes",
    "C31_sharing",
    "C31_immutable",
    "C31_type_id",
    "C31_resolves",
    "C31_errors",
    "C31_unknown_reference"
   ],
   "note": "For BTF without a base. C31_errors: after histories without a failed query; after one, see C32."
  },
  {
   "property": "C32",
   "status": "partial",
   "theorems": [
    "C32_well_formed_partial",
    "C32_no_failures_partial",
    "C32_refuted"
   ],
   "note": "The full statement is false (C32_refuted): after TypeByID of a malformed struct failed, a type that refers to it is handed out with the partial struct. Proved: for types that need only well formed records, and after histories without failures."
  },
  {
   "property": "C33",
   "status": "partial",
   "theorems": [
    "C33_exact_partial",
    "C33_found_partial",
    "C33_prefix_refuted",
    "C33_hash_refuted"
   ],
   "note": "For every hash function and history: exactly the types with the essential name, in ID order, or ErrNotFound. Not for names that start with ___: those are indexed under the empty name and not found (C33_prefix_refuted). A type that can't be decoded makes lookups of other names fail, depending on the random hash (C33_hash_refuted)."
  },
  {
   "property": "C34",
   "status": "proved",
   "theorems": [
    "C34_terminates",
    "C34_postorder",
    "C34_resumed",
    "C34_tags"
   ],
   "note": ""
  },
  {
   "property": "C35",
   "status": "proved",
   "theorems": [
    "C35_copy",
    "C35_copy_all",
    "C35_decl_tag_refuted"
   ],
   "note": "For graphs of the types a user can construct; refuted for explicit decl tag nodes (obtainable only by TypeByID of a decl tag record), whose copy keeps pointing at the original."
  },
  {
   "property": "C36",
   "status": "partial",
   "theorems": [
    "C36_sound_partial",
    "C36_acyclic_partial",
    "C36_same_names_partial",
    "C36_refuted_bitfield",
    "C36_refuted_linkage",
    "C36_refuted_tags",
    "C36_refuted_enum",
    "C36_refuted_cycle",
    "C36_refuted_hang"
   ],
   "note": "Proved for every history of additions and every hash function: if every cycle goes through a struct or union with a single definition, no addition which returns fails, and every type stays equivalent (bisimilar) to what it was, up to enum sizes, bitfield widths, tags, function linkage and datasec sizes. The unrestricted property is refuted: those attributes are lost, a cyclic struct can replace a different one of the same name, and a self-referential function pointer is hashed forever."
  },
  {
   "property": "C37",
   "status": "proved",
   "theorems": [
    "C37_exact",
    "C37_complete",
    "C37_unique",
    "C37_error",
    "C37_cyclic",
    "C37_zero_size_overflow_refuted"
   ],
   "note": "Sizeof never returns a wrong size; a zero-sized array of arrays with overflowing outer dimensions is an error although its size is 0."
  },
  {
   "property": "C38",
   "status": "proved",
   "theorems": [
    "C38_best",
    "C38_length",
    "C38_ambiguous",
    "C38_ambiguous_only_if",
    "C38_order",
    "C38_order_refuted",
    "C38_poison_refuted"
   ],
   "note": "Generic in the computation of one fixup. Beyond the claim: whether ambiguity is reported depends on the order of the targets (C38_order_refuted), and agreement ignores poisoning (C38_poison_refuted)."
  },
  {
   "property": "C39",
   "status": "proved",
   "theorems": [
    "C39_extract",
    "C39_straddle_refuted"
   ],
   "note": "For fields within the load, as the property says. A packed bitfield that straddles its storage unit gets a wrong value and no error (C39_straddle_refuted)."
  },
  {
   "property": "C40",
   "status": "proved",
   "theorems": [
    "C40_layout",
    "C40_unmatched",
    "C40_missing",
    "C40_anonymous_refuted",
    "C40_alignof_refuted"
   ],
   "note": "Offsets below 2^32 bits. Beyond the claim: an accessor ending at an anonymous member is relocated to the start of the enclosing struct (C40_anonymous_refuted), and a bitfield of a self-referential array type recurses forever (C40_alignof_refuted)."
  },
  {
   "property": "C41",
   "status": "proved",
   "theorems": [
    "C41_apply",
    "C41_succeeds",
    "C41_symbol_lost_refuted"
   ],
   "note": "A poisoned instruction loses its symbol and other metadata."
  },
  {
   "property": "C42",
   "status": "proved",
   "theorems": [
    "C42_terminates",
    "C42_exact",
    "C42_reflexive",
    "C42_error"
   ],
   "note": "Typedef and qualifier chains of more than 32 layers are unsupported."
  },
  {
   "property": "C43",
   "status": "proved",
   "theorems": [
    "C43_parse",
    "C43_nonempty",
    "C43_format"
   ],
   "note": ""
  },
  {
   "property": "C44",
   "status": "proved",
   "theorems": [
    "C44_strip",
    "C44_keep",
    "C44_total",
    "C44_flavours_match"
   ],
   "note": ""
  },
  {
   "property": "C45",
   "status": "proved",
   "theorems": [
    "C45_flatten",
    "C45_untouched",
    "C45_programs",
    "C45_resolves",
    "C45_recursion_refuted"
   ],
   "note": "A program that calls itself, directly or not, is appended to itself and then has duplicate symbols (C45_recursion_refuted); the property as stated covers it (reachable programs are appended once), C45_resolves excludes it. Flattening does not modify the metadata."
  },
  {
   "property": "C46",
   "status": "proved",
   "theorems": [
    "C46_marshal",
    "C46_unmarshal",
    "C46_round_trip",
    "C46_batch",
    "C46_batch_round_trip"
   ],
   "note": "For every element codec whose decoder inverts its encoder; sysenc's reflection is represented by that codec."
  },
  {
   "property": "C47",
   "status": "proved",
   "theorems": [
    "C47_bounds",
    "C47_read",
    "C47_write",
    "C47_history",
    "C47_frozen",
    "C47_new_variable",
    "C47_get",
    "C47_set_get"
   ],
   "note": ""
  },
  {
   "property": "C48",
   "status": "proved",
   "theorems": [
    "C48_deque_is_list",
    "C48_any_counter",
    "C48_empty"
   ],
   "note": "For every element type and every history; fewer than 2^60 elements."
  },
  {
   "property": "C49",
   "status": "partial",
   "theorems": [
    "C49_align",
    "C49_ispow",
    "C49_ispow_negative",
    "C49_between",
    "C49_align_negative_refuted",
    "C49_ispow_minint_refuted"
   ],
   "note": "Proved for non-negative arguments of every Go integer type; refuted for negative arguments of the signed instances."
  },
  {
   "property": "C50",
   "status": "proved",
   "theorems": [
    "C50_marshal_idempotent"
   ],
   "note": ""
  },
  {
   "property": "C51",
   "status": "proved",
   "theorems": [
    "C51_far_jump_refuted"
   ],
   "note": "Negative result."
  },
  {
   "property": "C52",
   "status": "partial",
   "theorems": [
    "C52_available_exact",
    "C52_available_nonnegative_refuted"
   ],
   "note": "True at a single moment; refuted when a reader runs between the two loads (negative result)."
  },
  {
   "property": "C53",
   "status": "partial",
   "theorems": [
    "C53_lease_access_mapped",
    "C53_available_after_close_refuted"
   ],
   "note": "True of leases; AvailableBytes after Close reads unmapped memory (refuted)."
  },
  {
   "property": "C54",
   "status": "partial",
   "theorems": [
    "C54_unknown_event_consumes_header",
    "C54_unknown_event_resync_refuted"
   ],
   "note": "Refuted: only the 8 byte header is consumed."
  },
  {
   "property": "C55",
   "status": "partial",
   "theorems": [
    "C55_terminates",
    "C55_exact",
    "C55_sound_partial",
    "C55_reflexive_partial",
    "C55_anonymous_refuted",
    "C55_pointer_refuted",
    "C55_forward_refuted"
   ],
   "note": "C55_exact characterises what the code accepts. It isn't the documented relation: a struct with two anonymous members doesn't match itself, types behind pointers are compared with their members, and a pointer to a forward declaration matches a pointer to a struct of any name. Sound if those names agree; reflexive if member names are distinct."
  },
  {
   "property": "C56",
   "status": "proved",
   "theorems": [
    "C56_relocate",
    "C56_order"
   ],
   "note": "TypesByName and TypeID of the targets are parameters."
  },
  {
   "property": "C57",
   "status": "proved",
   "theorems": [
    "C57_enum_value",
    "C57_enum_exists",
    "C57_type_exists",
    "C57_type_size",
    "C57_type_id",
    "C57_type_matches"
   ],
   "note": ""
  },
  {
   "property": "C58",
   "status": "partial",
   "theorems": [
    "C58_any_types_partial",
    "C58_any_type_partial",
    "C58_type_partial",
    "C58_flavours_refuted",
    "C58_empty_refuted"
   ],
   "note": "Proved if at most one type has the same essential name and another full name. With two flavours the loop that filters by full name skips an element after each deletion, so that a type of another name is returned (C58_flavours_refuted); with one flavour an empty list without error is returned and AnyTypeByName panics (C58_empty_refuted). fixupDatasec is modelled in C94."
  },
  {
   "property": "C59",
   "status": "partial",
   "theorems": [
    "C59_packed",
    "C59_layout",
    "C59_size",
    "C59_constants",
    "C59_refuted_packed",
    "C59_refuted_flexible",
    "C59_refuted_empty_union",
    "C59_refuted_int"
   ],
   "note": "Proved for all type graphs laid out in order and without overlap whose declared Go type needs no padding of Go's own (natural alignment; C59_packed drops the alignment condition and gives the layout without Go's padding). Refuted without it: packed structs, trailing flexible array members, an empty union (panic) and ints of 3 bytes. The text is modelled as a syntax tree."
  },
  {
   "property": "C60",
   "status": "partial",
   "theorems": [
    "C60_load",
    "C60_sound",
    "C60_refuted_header",
    "C60_refuted_duplicate",
    "C60_refuted_no_lines"
   ],
   "note": "Proved for all well formed files (any number of sections, any earlier queries of the types, any correct sort.Slice, any map order). Refuted as stated: a file with the 24 byte header (no CO-RE) at the end of the section isn't accepted or reads other bytes as CO-RE header (binary.Size of a pointer to a pointer is -1); of two sections with the same name only the last is kept; an empty line info subsection makes loading fail."
  },
  {
   "property": "C61",
   "status": "proved",
   "theorems": [
    "C61_round_trip",
    "C61_marshals",
    "C61_limits"
   ],
   "note": "Composed with the Builder round trip of C29: any earlier additions to the builder."
  },
  {
   "property": "C62",
   "status": "partial",
   "theorems": [
    "C62_assigned",
    "C62_refuted_unaligned",
    "C62_refuted_duplicate"
   ],
   "note": "Proved if the entries are sorted, distinct and each is for the start of an instruction. Otherwise refuted: an entry between instructions or a duplicate blocks all which follow."
  },
  {
   "property": "C63",
   "status": "proved",
   "theorems": [
    "C63_ends",
    "C63_stays",
    "C63_all",
    "C63_complete",
    "C63_hash",
    "C63_refuted_wrap",
    "C63_refuted_missed",
    "C63_refuted_once"
   ],
   "note": "The kernel is an arbitrary oracle in C63_ends and C63_stays; the hash map of C63_hash follows kernel/bpf/hashtab.c (buckets, new elements at the head, restart if the cursor is gone). Beyond the claim: max_entries = 2^32 - 1 makes Next loop forever (C63_refuted_wrap); an entry which is rewritten can be missed without an error, one nobody touched can be returned twice."
  },
  {
   "property": "C64",
   "status": "partial",
   "theorems": [
    "C64_array",
    "C64_hash_once",
    "C64_hash_complete",
    "C64_hash_alone",
    "C64_refuted_empty",
    "C64_refuted_retry"
   ],
   "note": "Kernel side as in generic_map_lookup_batch and __htab_map_lookup_and_delete_batch. For arrays the first call must neither fail nor be empty: otherwise the cursor is left zeroed but non-nil, and the next call skips element 0 (C64_refuted_empty, C64_refuted_retry). Unmarshalling is covered by C46."
  },
  {
   "property": "C65",
   "status": "proved",
   "theorems": [
    "C65_memory",
    "C65_other_map",
    "C65_kernels"
   ],
   "note": ""
  },
  {
   "property": "C66",
   "status": "proved",
   "theorems": [
    "C66_collection_error",
    "C66_collection_success",
    "C66_assign_error",
    "C66_assign_success",
    "history_once"
   ],
   "note": "Failures are an arbitrary oracle per step. newMapWithOptions and newProgramWithOptions are steps which create nothing if they fail."
  },
  {
   "property": "C67",
   "status": "proved",
   "theorems": [
    "C67_collection",
    "C67_assign"
   ],
   "note": "history and valid in Coll/LoaderSpec.v say what may happen after a log; they hold for every prefix, whether the call succeeds or not."
  },
  {
   "property": "C68",
   "status": "partial",
   "theorems": [
    "C68_collection",
    "C68_assign",
    "C68_refuted_lazy",
    "C68_refuted_fields",
    "replacement_populated_refuted"
   ],
   "note": "Proved for NewCollection, and for LoadAndAssign for all maps needed directly by the fields. Refuted: a map of maps which a program of a program array needs is populated or not depending on Go's map iteration; on error the fields hold closed objects although the documentation says that the struct is updated after populating. Replacement maps are populated if and only if they hold maps or programs. populateStructOps is a step which leaves contents alone."
  },
  {
   "property": "C69",
   "status": "partial",
   "theorems": [
    "C69_ownership",
    "C69_assign",
    "C69_fields",
    "C69_refuted_recursion"
   ],
   "note": "Fields of structs are found whenever the structs are not cyclic. The guard against recursion never triggers since visited is never written to: a cyclic struct overflows the stack (C69_refuted_recursion)."
  },
  {
   "property": "C70",
   "status": "proved",
   "theorems": [
    "C70_answers",
    "C70_runs",
    "C70_cached",
    "C70_progress",
    "C70_no_race",
    "C70_cache",
    "C70_cache_tests"
   ],
   "note": "Small-step semantics with an RWMutex which admits more schedules than Go's. A probe which calls itself would deadlock: probes are assumed to return."
  },
  {
   "property": "C71",
   "status": "proved",
   "theorems": [
    "C71_order",
    "C71_code",
    "C71_select",
    "C71_refuted_wrap"
   ],
   "note": "Kernel versions with major or minor above 255 wrap (C71_refuted_wrap): the claim is for those below. Parsing (Sscanf) is not modelled."
  },
  {
   "property": "C72",
   "status": "proved",
   "theorems": [
    "C72_lookup",
    "C72_history",
    "C72_failure",
    "C72_read_error",
    "C72_refuted_stale",
    "C72_refuted_untouched"
   ],
   "note": "Only ASCII spaces are trimmed. The process wide cache is sequential (sync.Map operations of concurrent lookups are not interleaved). The cache outlives changes of the kernel: symbols of modules loaded after a lookup are not found, reloaded modules have old addresses (C72_refuted_stale). A failed lookup can change the caller's map (C72_refuted_untouched)."
  },
  {
   "property": "C73",
   "status": "partial",
   "theorems": [
    "C73_program",
    "C73_complete",
    "C73_collection",
    "C73_one_read",
    "C73_refuted_weak",
    "C73_refuted_typed"
   ],
   "note": "True of single programs. Collections are refused in cases where each program alone can be loaded: weak references to hidden symbols (C73_refuted_weak) and typed references to ambiguous names (C73_refuted_typed), since populateKallsyms looks all of them up and passes all errors on. Typed references (BTF IDs) are not modelled."
  },
  {
   "property": "C74",
   "status": "proved",
   "theorems": [
    "C74_parse",
    "C74_parse_all",
    "C74_value",
    "C74_contents",
    "C74_no_panic",
    "C74_lone_quote_refuted",
    "C74_quotes_refuted",
    "C74_terminated_refuted",
    "C74_typedef_refuted",
    "C74_layout_refuted"
   ],
   "note": "For texts which are not a lone quote and whose contents do not begin or end with quotes, and layouts where a variable's size is that of its type. Outside: contents lose quotes at their ends (C74_quotes_refuted), a lone quote is an empty string (C74_lone_quote_refuted), too long strings are cut off without a terminating zero (C74_terminated_refuted), the kernel version must not be behind a typedef (C74_typedef_refuted), and a section too small for its variables makes loading panic (C74_layout_refuted). Decompression, underscores in numbers (Go accepts them, the model does not), and finding the file are not modelled."
  },
  {
   "property": "C75",
   "status": "proved",
   "theorems": [
    "C75_match",
    "C75_best",
    "C75_reachable",
    "C75_sleepable",
    "C75_exact_refuted",
    "C75_ex"
   ],
   "note": "Names are bytes. Patterns without a mark admit every continuation of a name, so that a section tcp_congestion is a classifier (C75_exact_refuted; libbpf wants the exact name)."
  },
  {
   "property": "C76",
   "status": "proved",
   "theorems": [
    "C76_total",
    "C76_order",
    "C76_programs",
    "C76_calls",
    "C76_loads",
    "C76_example",
    "C76_function_pointer_refuted",
    "C76_addend_refuted",
    "C76_call_addend_refuted",
    "C76_negative_refuted",
    "C76_alias_refuted",
    "C76_truncated_refuted"
   ],
   "note": "debug/elf, which splits the file into sections and symbols, is not modelled, nor are line and function infos here (C60). The hypotheses regular and usual_file say what compilers emit; the refuted theorems show what happens beyond: addends of named symbols and the value of a symbol whose address is taken are ignored, a call to before the section is a call of its first function, of two names of a function one is lost, truncated sections are not noticed."
  },
  {
   "property": "C77",
   "status": "proved",
   "theorems": [
    "C77_loads",
    "C77_contents",
    "C77_order",
    "C77_example",
    "C77_order_refuted",
    "C77_order_fails_refuted",
    "C77_alias_refuted",
    "C77_same_name_refuted"
   ],
   "note": "Under the hypotheses regular (C76) and usual_data, which say what compilers emit: no two data symbols at one offset, section names are unique, BTF describes a variable once and in its own section. Beyond them: a static variable named like a global one of another section makes the type, or even success, depend on the order in which sections are visited (C77_order_refuted, C77_order_fails_refuted); of two symbols at one offset one is lost (C77_alias_refuted); sections with the same name overwrite each other (C77_same_name_refuted). BTF is an abstract function from section names to their variables."
  },
  {
   "property": "C78",
   "status": "proved",
   "theorems": [
    "C78_accepted",
    "C78_map",
    "C78_order",
    "C78_example",
    "C78_truncated_refuted",
    "C78_zero_refuted",
    "C78_align_refuted",
    "C78_inner_values_refuted"
   ],
   "note": "Under usual_defs: members have distinct names, numbers (other than map_extra) and sizes fit 32 bits, an inner map has no values, the section is aligned to 8. Beyond: numbers are truncated (C78_truncated_refuted), a key_size of 0 beside key is accepted in one order only (C78_zero_refuted), the section's alignment is used as pointer size so that other alignments shift or lose elements (C78_align_refuted), an inner program array takes over contents of the outer one (C78_inner_values_refuted)."
  },
  {
   "property": "C79",
   "status": "proved",
   "theorems": [
    "C79_loads",
    "C79_maps",
    "C79_every_symbol",
    "C79_order",
    "C79_example",
    "C79_alias_refuted"
   ],
   "note": "Under regular (C76) and usual_maps: no two map symbols at one offset (C79_alias_refuted), sections are PROGBITS, the variables of a section have distinct names, definitions are as in C78. Spec.TypeByName is abstract: the data section of a name."
  },
  {
   "property": "C80",
   "status": "proved",
   "theorems": [
    "C80_bounded",
    "C80_never_gives_up",
    "C80_disabled",
    "C80_accepted",
    "C80_rejected",
    "C80_explained",
    "C80_verifier_bug",
    "C80_refused",
    "C80_too_long_hinted",
    "C80_ex_hints",
    "C80_ex_nohints",
    "C80_growing_hints_refuted",
    "C80_enospc_refuted"
   ],
   "note": "The kernel is any function satisfying the relation verifies of Prog/LoadSpec.v (valid attributes, ENOSPC if the log does not fit, LogTrueSize since 6.4). A log longer than the kernel's largest buffer is lost together with the errno if the kernel gives hints (C80_too_long_hinted); hints which keep growing reach the bound (C80_growing_hints_refuted); ENOSPC for another reason is taken to be about the log (C80_enospc_refuted). EAGAIN, tokens and haveBPFToBPFCalls are parameters."
  },
  {
   "property": "C81",
   "status": "proved",
   "theorems": [
    "C81_log",
    "C81_roundtrip",
    "C81_summary",
    "C81_shown",
    "C81_format",
    "C81_rows",
    "C81_verbs",
    "C81_ex_log",
    "C81_ex_summary",
    "C81_only_statistics_refuted"
   ],
   "note": "strings.TrimSpace is modelled for ASCII. A log of statistics only is neither shown nor counted (C81_only_statistics_refuted)."
  },
  {
   "property": "C82",
   "status": "proved",
   "theorems": [
    "C82_ends",
    "C82_accepted",
    "C82_rejected",
    "C82_rejected_old",
    "C82_refused",
    "C82_ex",
    "C82_old_truncates_refuted"
   ],
   "note": "Kernels as in C80; old BTF verifiers as answers_old (no ENOSPC for rejected BTF), for which a longer log is cut without notice (C82_old_truncates_refuted)."
  },
  {
   "property": "C83",
   "status": "proved",
   "theorems": [
    "C83_safe",
    "C83_wait",
    "C83_errclosed",
    "C83_reports",
    "C83_after_close",
    "C83_close_interrupts",
    "C83_flush",
    "C83_no_deadlock",
    "C83_bounded",
    "C83_close_ends",
    "C83_deadline",
    "C83_session",
    "C83_early_refuted",
    "C83_far_refuted",
    "C83_both_nil_refuted"
   ],
   "note": "Steps are the accesses to shared state; the kernel picks any pending events that fit. Writing to the eventfds does not fail in the model. Wait may report the deadline up to 1 ms early (C83_early_refuted), a deadline 2^31 ms away blocks forever and one 2^32 ms away not at all (C83_far_refuted); two concurrent Close may both return nil (C83_both_nil_refuted)."
  },
  {
   "property": "C84",
   "status": "proved",
   "theorems": [
    "C84_replaced",
    "C84_complete",
    "C84_maps",
    "C84_terminates_refuted",
    "C84_labels_refuted"
   ],
   "note": "Lookups of types in the kernel are parameters (k_func, k_var). If the last instruction loads the address of a weak function that does not exist, the loop never ends (C84_terminates_refuted); a poisoned call loses its label (C84_labels_refuted)."
  },
  {
   "property": "C85",
   "status": "proved",
   "theorems": [
    "C85_closed",
    "C85_closed_on_error",
    "C85_closed_on_error_refuted"
   ],
   "note": "On errors under the condition that no variable of a module is referred to and at most 32767 functions of modules are: otherwise handles leak until the garbage collector closes them (C85_closed_on_error_refuted)."
  },
  {
   "property": "C86",
   "status": "proved",
   "theorems": [
    "C86_offset",
    "C86_result",
    "C86_given",
    "C86_symbol",
    "C86_no_symbol",
    "C86_multi",
    "C86_once",
    "C86_errors_refuted",
    "C86_exclusive_refuted"
   ],
   "note": "ELF parsing is a parameter. Only the first caller is told that the file can't be read (C86_errors_refuted); addresses and symbols are not mutually exclusive as documented (C86_exclusive_refuted)."
  },
  {
   "property": "C87",
   "status": "proved",
   "theorems": [
    "C87_line",
    "C87_complete",
    "C87_identifier",
    "C87_symbol",
    "C87_sanitize",
    "C87_name",
    "C87_group",
    "C87_group_distinct",
    "C87_no_symbol_refuted",
    "C87_space_refuted",
    "C87_newline_refuted"
   ],
   "note": "The kernel's parser is a specification. An address without a symbol, as documented, is refused by tracefs (C87_no_symbol_refuted); paths with white space, also as a byte of another character, are misread (C87_space_refuted), and with a newline become a second command (C87_newline_refuted)."
  },
  {
   "property": "C88",
   "status": "proved",
   "theorems": [
    "C88_success",
    "C88_clean",
    "C88_order",
    "C88_retry",
    "C88_close",
    "C88_restore",
    "C88_close_again",
    "C88_works",
    "C88_leak_refuted",
    "C88_close_again_refuted",
    "C88_ref_refuted"
   ],
   "note": "The kernel answers arbitrarily, except that the id of an event that exists is not missing. An event leaks if its id can't be read (C88_leak_refuted); closing a link twice is an error if there is an event (C88_close_again_refuted); offsets of reference counters are cut to 32 bits (C88_ref_refuted)."
  },
  {
   "property": "C89",
   "status": "proved",
   "theorems": [
    "C89_pin",
    "C89_pin_complete",
    "C89_unpin",
    "C89_uses",
    "C89_load",
    "C89_never_replaced",
    "C89_same_path_refuted",
    "C89_foreign_refuted",
    "C89_load_refuted",
    "C89_leak_refuted"
   ],
   "note": "If others change the pin, Pin to the present path does nothing (C89_same_path_refuted) and other objects are moved or unpinned (C89_foreign_refuted). pin.Load forgets the path (C89_load_refuted). Loading a per-CPU map leaks if the number of CPUs is unknown (C89_leak_refuted)."
  },
  {
   "property": "C90",
   "status": "proved",
   "theorems": [
    "C90_reusable",
    "C90_compatible",
    "C90_magic",
    "C90_same",
    "C90_usable",
    "C90_no_leak",
    "C90_kept",
    "C90_reopen",
    "C90_overwrite_refuted",
    "C90_const_refuted",
    "C90_left_refuted"
   ],
   "note": "Contents of the specs must agree, and the number of CPUs must be known. Opening an existing map overwrites its data with the contents of the spec (C90_overwrite_refuted); a constant map with contents can't be opened a second time (C90_const_refuted); the pin of a map that can't be filled stays (C90_left_refuted). Of several that race some may fail with EEXIST."
  },
  {
   "property": "C91",
   "status": "proved",
   "theorems": [
    "C91_marshal",
    "C91_zero_copy",
    "C91_padding",
    "C91_unmarshal",
    "C91_output",
    "C91_round_trip",
    "C91_round_trip_bytes",
    "C91_write_back",
    "C91_example",
    "C91_nothing_refuted",
    "C91_bool_refuted",
    "C91_blank_refuted",
    "C91_unexported_refuted",
    "C91_nan_refuted"
   ],
   "note": "encoding/binary is modelled for little endian machines; endianness is otherwise that of the machine. Size 0 lets anything through (C91_nothing_refuted). A boolean read without copying can be neither true nor false (C91_bool_refuted); blank fields and signalling NaNs are passed on from pointers but not from values (C91_blank_refuted, C91_nan_refuted); unexported fields can be written but make reading panic (C91_unexported_refuted)."
  },
  {
   "property": "C92",
   "status": "proved",
   "theorems": [
    "C92_close",
    "C92_use",
    "C92_once",
    "C92_no_leak",
    "C92_closed",
    "C92_example",
    "C92_close_refuted",
    "C92_disown_refuted",
    "C92_use_refuted"
   ],
   "note": "For programs which keep the FD until its methods return (careful in Fd/FdSpec.v), one method at a time per FD. Without: Disown stops the cleanup after the last use of the FD, which may be too late, so that Close can close somebody else's descriptor (C92_close_refuted), a disowned descriptor is closed (C92_disown_refuted), and a system call can hit another descriptor (C92_use_refuted): there is no runtime.KeepAlive."
  },
  {
   "property": "C93",
   "status": "proved",
   "theorems": [
    "C93_types",
    "C93_pointer",
    "C93_region",
    "C93_backed",
    "C93_kept",
    "C93_heap",
    "C93_example",
    "C93_hole_refuted",
    "C93_uintptr_refuted"
   ],
   "note": "Finalizers run once, after the object became unreachable and before its memory is reused. POSIX lets a failing mmap(MAP_FIXED) discard what was mapped: then a part of the Go heap is gone and nothing repairs it (C93_hole_refuted). On 32 bit big endian machines a uintptr is the upper half of a pointer (C93_uintptr_refuted)."
  },
  {
   "property": "C94",
   "status": "proved",
   "theorems": [
    "C94_kconfig",
    "C94_data",
    "C94_unchanged",
    "C94_history",
    "C94_copy",
    "C94_modified",
    "C94_example",
    "C94_example_hyps",
    "C94_retry_refuted",
    "C94_copy_refuted",
    "C94_wrap_refuted",
    "C94_same_name_refuted"
   ],
   "note": "Proved for .kconfig below 4 GiB; beyond, offsets overlap (C94_wrap_refuted). What failed once succeeds the next time, with a section that is repaired in part (C94_retry_refuted). Changes to .kconfig get lost when the Spec is copied and the section is looked up in the copy (C94_copy_refuted), as elfData.fixups has the types of the original. Of two ELF sections with one name the last gives the size (C94_same_name_refuted). Sizes and alignments of types are parameters here; C14 has them."
  },
  {
   "property": "C95",
   "status": "proved",
   "theorems": [
    "C95_target",
    "C95_unsupported",
    "C95_ambiguous",
    "C95_unrecognized",
    "C95_handles",
    "C95_attach",
    "C95_complete",
    "C95_ends",
    "C95_example",
    "C95_example_hyps",
    "C95_ambiguous_refuted",
    "C95_leak_refuted",
    "C95_struct_ops_refuted",
    "C95_unload_refuted",
    "C95_reload_refuted"
   ],
   "note": "Proved if no module is replaced by a different one of the same name: the Cache keeps the types of the old one, and the program gets the ID of another type (C95_reload_refuted). A name in vmlinux and in a module, or in two modules, is not refused (C95_ambiguous_refuted). If a lookup in a module fails, a handle stays open until the garbage collector closes it (C95_leak_refuted: the deferred Close is that of a nil handle); for struct_ops in modules one or two do (C95_struct_ops_refuted). An unrelated module that is unloaded during the search makes it fail (C95_unload_refuted)."
  },
  {
   "property": "C96",
   "status": "proved",
   "theorems": [
    "C96_result",
    "C96_error",
    "C96_panic",
    "C96_ends",
    "C96_attempts",
    "C96_test",
    "C96_example",
    "C96_interrupted_refuted",
    "C96_empty_refuted",
    "C96_context_refuted"
   ],
   "note": "Proved for buffers for output that are nil or not empty. Before Linux 5.11 a signal during a single execution gives return value 0 and an output of zeros, without an error (C96_interrupted_refuted). A buffer that is empty, but not nil, makes Run panic or gives out whatever memory it has (C96_empty_refuted), and so does a ContextOut without a fixed size (C96_context_refuted). Sizes of 4 GiB or more and the encoding of contexts are not modelled."
  },
  {
   "property": "C97",
   "status": "proved",
   "theorems": [
    "C97_history",
    "C97_race",
    "C97_deadlock",
    "C97_steps",
    "C97_panic",
    "C97_kernel",
    "C97_module",
    "C97_once",
    "C97_succeeds",
    "C97_modules",
    "C97_example",
    "C97_stale_refuted"
   ],
   "note": "C97_history: each event is allowed by a specification given the events before it. Reading the directory and loading are atomic; the reader-writer lock is modelled by what it guarantees (a waiting writer keeps new readers out). What is cached stays when modules come and go: Modules then gives the old list and Module the types of a module that is gone (C97_stale_refuted)."
  },
  {
   "property": "C98",
   "status": "proved",
   "theorems": [
    "C98_attached",
    "C98_attach",
    "C98_update",
    "C98_close",
    "C98_others",
    "C98_example",
    "C98_override_refuted",
    "C98_full_refuted"
   ],
   "note": "One cgroup and attach type, without ancestors; pinned links are not modelled; others detach only what is theirs. Before Linux 5.5 there is no way to keep programs apart: a second AttachCgroup silently replaces the first program, and closing the first link then detaches the program of the second (C98_override_refuted). With 64 programs attached Update fails on kernels without links (C98_full_refuted)."
  },
  {
   "property": "C99",
   "status": "proved",
   "theorems": [
    "C99_state",
    "C99_next",
    "C99_close",
    "C99_ends",
    "C99_example",
    "C99_endless_refuted"
   ],
   "note": "HandleIterator has no Close; its users close the current handle. While objects come and go all the time Next need not return (C99_endless_refuted): this needs ids to be unbounded, in the kernel they wrap at 2^31."
  },
  {
   "property": "C100",
   "status": "proved",
   "theorems": [
    "C100_link",
    "C100_raw",
    "C100_link_succeeds",
    "C100_raw_succeeds",
    "C100_detach",
    "C100_detach_succeeds",
    "C100_update",
    "C100_update_succeeds",
    "C100_close",
    "C100_query",
    "C100_wf",
    "C100_init",
    "C100_example",
    "C100_replace_by_id_refuted",
    "C100_revision_refuted",
    "C100_unkept_refuted"
   ],
   "note": "One interface and attach type; all programs are of the right type; a link has one descriptor and is not pinned. ReplaceProgramByID never works: the id is passed where the kernel expects a descriptor (C100_replace_by_id_refuted). The kernel starts over with revisions when the last program is gone, so that an expected revision can be met by other programs (C100_revision_refuted). RawAttachProgram and RawDetachProgram do not keep the program of the anchor alive until the system call: C100_raw and C100_detach ask that its descriptor is still the same; if it was the last use, the program can go elsewhere (C100_unkept_refuted)."
  },
  {
   "property": "C101",
   "status": "proved",
   "theorems": [
    "C101_parse",
    "C101_lines",
    "C101_filter",
    "C101_tracefs",
    "C101_example",
    "C101_space_refuted",
    "C101_shift_refuted"
   ],
   "note": "Strings are lists of code points. Proved for mounts whose paths have no white space that the kernel does not escape: with a no-break space in its name a mount point is cut (C101_space_refuted), and with a carriage return in the name of the directory mounted, what follows it is taken to be the mount point (C101_shift_refuted)."
  },
  {
   "property": "C102",
   "status": "proved",
   "theorems": [
    "C102_call",
    "C102_search",
    "C102_nonzero",
    "C102_signals",
    "C102_wf",
    "C102_once",
    "C102_returns",
    "C102_init",
    "C102_sigset",
    "C102_example",
    "C102_cached_refuted",
    "C102_noproc_refuted",
    "C102_unblocks_refuted"
   ],
   "note": "The kernel is any function of the system calls so far; one thread. An error while looking for a token is kept, too: after running out of descriptors once, the process cannot load programs any more (C102_cached_refuted); without /proc nothing that may take a token is passed on (C102_noproc_refuted). A caller that had SIGPROF blocked finds it unblocked after loading a program (C102_unblocks_refuted)."
  },
  {
   "property": "C103",
   "status": "proved",
   "theorems": [
    "C103_pins",
    "C103_stops",
    "C103_all",
    "C103_open",
    "C103_returns",
    "C103_works",
    "C103_example",
    "C103_removed_refuted",
    "C103_leak_refuted"
   ],
   "note": "The root and its changes are any function from times to trees. C103_open asks that the number of CPUs can be found; if not, a map with a value per CPU stays open although the caller does not get it (C103_leak_refuted). A pin that somebody removes at the wrong moment ends the walk with an error, and the rest is not seen (C103_removed_refuted)."
  },
  {
   "property": "C104",
   "status": "proved",
   "theorems": [
    "C104_restored",
    "C104_max",
    "C104_detected",
    "C104_remove",
    "C104_token",
    "C104_unknown",
    "C104_example",
    "C104_unprivileged_refuted"
   ],
   "note": "Nobody else changes the limit meanwhile. A process that may not make maps gets the same errno as one over the limit: on a new kernel RemoveMemlock, documented to do nothing there, fails, or removes the limit if the process may (C104_unprivileged_refuted)."
  },
  {
   "property": "C105",
   "status": "proved",
   "theorems": [
    "C105_first",
    "C105_none",
    "C105_address",
    "C105_version",
    "C105_any",
    "C105_rest",
    "C105_example",
    "C105_panics_refuted"
   ],
   "note": "debug/elf is not modelled: sections are given by type and contents. Rounding up a name size of 2147483645 to 2147483647 overflows, and making the buffer panics (C105_panics_refuted)."
  },
  {
   "property": "C106",
   "status": "proved",
   "theorems": [
    "C106_number",
    "C106_positive",
    "C106_any",
    "C106_example",
    "C106_lax_refuted"
   ],
   "note": "fmt.Sscanf is modelled for this format and ASCII text. Texts that the kernel does not print are taken, even with a negative result (C106_lax_refuted)."
  },
  {
   "property": "C107",
   "status": "proved",
   "theorems": [
    "C107_info",
    "C107_old",
    "C107_errors",
    "C107_malformed",
    "C107_example"
   ],
   "note": "Text after a number, which Fscan leaves, is an error in the model, and of the spellings of bools only 0 and 1 are known. Name and BTF id, which only the kernel tells, are not modelled. If fdinfo can not be opened, say because procfs is not mounted, information fails even if the kernel told everything (C107_errors)."
  }
 ]
}