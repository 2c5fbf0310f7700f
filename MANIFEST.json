{
 "claims": [
  {
   "property": "C01",
   "status": "proved",
   "theorems": [
    "C01_any_colons",
    "C01_route_accepted",
    "C01_middleware_accepted",
    "C01_mount_accepted",
    "C01_root_mount_accepted",
    "C01_history_accepted"
   ],
   "note": "Exact characterisation for each kind of call on any router built by accepted calls, and for whole histories. No path may end or branch off right before a colon inside a segment (C23 covers the rest). C01_any_colons: colons anywhere, a call whose path does not clash is accepted exactly when its place is free; whether a clashing call is rejected depends there on the order of the children (C23)."
  },
  {
   "property": "C02",
   "status": "partial",
   "theorems": [
    "C02_refuted",
    "C02_exact",
    "C02_literals_partial",
    "C02_partial"
   ],
   "note": "Refuted: '/users' and '/user/:id' are rejected in both orders. C02_exact: exactly which pairs are accepted. Proved for paths without parameters and for paths that first differ in literal segments neither of which begins with the other."
  },
  {
   "property": "C03",
   "status": "proved",
   "theorems": [
    "C03_literal_route_found"
   ],
   "note": "For all accepted histories, colons anywhere."
  },
  {
   "property": "C04",
   "status": "proved",
   "theorems": [
    "C04_parameter_route_found"
   ],
   "note": "For all accepted histories, colons anywhere."
  },
  {
   "property": "C05",
   "status": "proved",
   "theorems": [
    "C05_wildcard_found",
    "C05_star_mount_refuted",
    "C05_any_colons"
   ],
   "note": "Proved with the condition that no router is mounted at a path ending in '*'; C05_star_mount_refuted shows the condition is needed. Paths are compared by their texts (segments without slashes) in the *_any_colons theorems, which hold for every accepted router; the others describe the result exactly where no path ends or branches off right before a colon inside a segment."
  },
  {
   "property": "C06",
   "status": "partial",
   "theorems": [
    "C06_refuted",
    "C06_partial",
    "C06_one_route",
    "C06_lost_segments_refuted",
    "C06_any_colons_partial"
   ],
   "note": "Refuted: a router with only '/a/b' answers '/ab', and with colons inside segments whole segments of the request may be lost (C06_lost_segments_refuted). Proved up to slash positions; in general, what is found was registered, all on one text. For a router with one route, C06_one_route gives exactly the requests that reach it."
  },
  {
   "property": "C07",
   "status": "proved",
   "theorems": [
    "C07_lookup_resolution",
    "C07_resolution_lookup",
    "C07_lookup_none",
    "C07_resolution_unique"
   ],
   "note": "Lookup = declarative resolution, both directions, plus the None case and uniqueness."
  },
  {
   "property": "C08",
   "status": "partial",
   "theorems": [
    "C08_partial",
    "C08_refuted",
    "C08_accepted_partial"
   ],
   "note": "Refuted: '/ac' and '/a:b' in the two orders, request '/a/c'. Proved (mounts included) for histories in which no path ends or branches off right before a colon inside a segment; then a permutation of an accepted sequence of handlers and middlewares is accepted."
  },
  {
   "property": "C09",
   "status": "proved",
   "theorems": [
    "C09_later_calls_keep"
   ],
   "note": "For all accepted histories, colons anywhere."
  },
  {
   "property": "C10",
   "status": "proved",
   "theorems": [
    "C10_pieces",
    "C10_redundant_slashes"
   ],
   "note": ""
  },
  {
   "property": "C11",
   "status": "proved",
   "theorems": [
    "C11_lookup_never_panics"
   ],
   "note": ""
  },
  {
   "property": "C12",
   "status": "proved",
   "theorems": [
    "C12_documented_panics"
   ],
   "note": ""
  },
  {
   "property": "C13",
   "status": "proved",
   "theorems": [
    "C13_applied_middlewares",
    "C13_any_colons"
   ],
   "note": "Paths are compared by their texts (segments without slashes) in the *_any_colons theorems, which hold for every accepted router; the others describe the result exactly where no path ends or branches off right before a colon inside a segment."
  },
  {
   "property": "C14",
   "status": "partial",
   "theorems": [
    "C14_refuted",
    "C14_partial",
    "C14_segments_partial",
    "C14_any_colons_partial"
   ],
   "note": "Refuted: a middleware on '/admin' runs for '/administrator'. Proved on text prefixes, and on segments when no registered path extends another in mid-segment."
  },
  {
   "property": "C15",
   "status": "proved",
   "theorems": [
    "C15_middleware_order",
    "C15_any_colons"
   ],
   "note": "Paths are compared by their texts (segments without slashes) in the *_any_colons theorems, which hold for every accepted router; the others describe the result exactly where no path ends or branches off right before a colon inside a segment."
  },
  {
   "property": "C16",
   "status": "partial",
   "theorems": [
    "C16_refuted",
    "C16_partial",
    "C16_inner_first",
    "C16_any_colons_partial",
    "C16_any_colons_inner_first"
   ],
   "note": "Refuted: below the root the inner middleware runs first, always (C16_inner_first). Root middlewares do come first."
  },
  {
   "property": "C17",
   "status": "partial",
   "theorems": [
    "C17_refuted",
    "C17_root_path_ignored",
    "C17_partial",
    "C17_own_path_partial",
    "C17_service_partial",
    "C17_any_colons_partial"
   ],
   "note": "Refuted: use_service_to(\"/\", m) drops m (C17_root_path_ignored: always). Every other path is effective. With colons anywhere: it applies to the requests of every route registered at or below its path."
  },
  {
   "property": "C18",
   "status": "proved",
   "theorems": [
    "C18_mount_as_direct",
    "C18_counting",
    "C18_scope"
   ],
   "note": "Mount path not root, without '*'; the mounted router has no mount at its own root and at least one entry. The two routers are the same trie, colons anywhere. App::scope is the same mount (C18_scope)."
  },
  {
   "property": "C19",
   "status": "partial",
   "theorems": [
    "C19_refuted",
    "C19_root_forgets",
    "C19_partial"
   ],
   "note": "Refuted by a mount at '/'. Proved for every other mount path. (colons anywhere) C19_root_forgets: a router mounted at '/' takes the place of everything before."
  },
  {
   "property": "C20",
   "status": "proved",
   "theorems": [
    "C20_methods_independent",
    "C20_only_registered_methods",
    "C20_any_colons",
    "C20_any_colons_registered",
    "C20_one_handler"
   ],
   "note": "Paths are compared by their texts (segments without slashes) in the *_any_colons theorems, which hold for every accepted router; the others describe the result exactly where no path ends or branches off right before a colon inside a segment."
  },
  {
   "property": "C21",
   "status": "proved",
   "theorems": [
    "C21_literal_over_wildcard",
    "C21_deepest_wildcard",
    "C21_any_colons",
    "C21_any_colons_deepest"
   ],
   "note": "The second half needs that no router is mounted at a path ending in '*'. Paths are compared by their texts (segments without slashes) in the *_any_colons theorems, which hold for every accepted router; the others describe the result exactly where no path ends or branches off right before a colon inside a segment."
  },
  {
   "property": "C22",
   "status": "partial",
   "theorems": [
    "C22_refuted",
    "C22_root_refuted",
    "C22_partial",
    "C22_never_otherwise",
    "C22_any_colons_partial"
   ],
   "note": "Refuted: '/:id/*' does not answer '/5', '/*' does not answer '/'. Proved when the prefix ends in a literal segment; proved that it never holds otherwise (C22_never_otherwise)."
  },
  {
   "property": "C23",
   "status": "partial",
   "theorems": [
    "C23_refuted",
    "C23_partial",
    "C23_single_partial"
   ],
   "note": "Refuted: with '/a:b' and '/ac', request '/a/x' binds b. Proved: such a route always answers its own path, nothing bound; nothing else binds parameters in routers in which no path ends or branches off right before a colon inside a segment."
  },
  {
   "property": "C24",
   "status": "partial",
   "theorems": [
    "C24_refuted",
    "C24_partial",
    "C24_any_colons_partial",
    "C24_duplicate_replaces"
   ],
   "note": "Refuted: a rejected duplicate has already replaced the handler (C24_duplicate_replaces: always). Proved for every other rejected call, colons anywhere."
  },
  {
   "property": "C25",
   "status": "proved",
   "theorems": [
    "C25_not_found",
    "C25_any_router",
    "C25_any_colons"
   ],
   "note": ""
  },
  {
   "property": "C26",
   "status": "proved",
   "theorems": [
    "C26_chain",
    "C26_once",
    "C26_onion"
   ],
   "note": "C26_chain: any middlewares (also those calling next several times or leaving out others); C26_once and C26_onion: middlewares calling next at most / exactly once."
  },
  {
   "property": "C27",
   "status": "proved",
   "theorems": [
    "C27_stops",
    "C27_rest_irrelevant"
   ],
   "note": "C27_rest_irrelevant: the middlewares before must not leave out others."
  },
  {
   "property": "C28",
   "status": "proved",
   "theorems": [
    "C28_error",
    "C28_any_colons"
   ],
   "note": ""
  },
  {
   "property": "C29",
   "status": "proved",
   "theorems": [
    "C29_response",
    "C29_no_response",
    "C29_any_colons"
   ],
   "note": ""
  },
  {
   "property": "C30",
   "status": "partial",
   "theorems": [
    "C30_refuted",
    "C30_partial",
    "C30_any_colons_partial"
   ],
   "note": "Refuted: the header map keeps one value per name, so of two Set-Cookie headers only the last is sent. Proved for header lists without repeated names."
  },
  {
   "property": "C31",
   "status": "partial",
   "theorems": [
    "C31_refuted",
    "C31_exact",
    "C31_partial",
    "C31_default_partial",
    "C31_any_colons_partial"
   ],
   "note": "Refuted: Logger unwraps the response, so a handler returning Ok without a response makes the request panic instead of giving 200. Proved for chains (and whole servers, App::default against App::new) whose handlers and middlewares set a response when they succeed, behind middlewares that do not leave out others. C31_exact says what the Logger does in every chain."
  },
  {
   "property": "C32",
   "status": "proved",
   "theorems": [
    "C32_app_state",
    "C32_behind",
    "C32_any_colons"
   ],
   "note": "C32_app_state: what the first middleware sees. C32_behind: what the handler sees behind middlewares that leave the type alone."
  },
  {
   "property": "C33",
   "status": "proved",
   "theorems": [
    "C33_builder",
    "C33_response"
   ],
   "note": ""
  },
  {
   "property": "C34",
   "status": "proved",
   "theorems": [
    "C34_responders",
    "C34_html_json"
   ],
   "note": ""
  },
  {
   "property": "C35",
   "status": "proved",
   "theorems": [
    "C35_behind",
    "C35_dir_behind",
    "C35_joined",
    "C35_file",
    "C35_dir_file",
    "C35_handler",
    "C35_served",
    "C35_exact",
    "C35_any_colons",
    "C35_dir_any_colons"
   ],
   "note": "C35_behind and C35_dir_behind: also behind middlewares that only look on (C92), such as the Logger of App::default."
  },
  {
   "property": "C36",
   "status": "partial",
   "theorems": [
    "C36_refuted",
    "C36_partial",
    "C36_always"
   ],
   "note": "Refuted: '..' segments are passed to the file system. Proved for requests without '..' segments. C36_always: from every directory served under a plain path, any file above it can be requested with a path a client can send."
  },
  {
   "property": "C37",
   "status": "partial",
   "theorems": [
    "C37_refuted",
    "C37_partial",
    "C37_exact",
    "C37_never"
   ],
   "note": "Refuted: the number of segments skipped is that of the virtual path, not counting the mount path. Proved for every mount path but the root: which requests are answered and which file each of them reads (C37_exact), and that it is never the one asked for (C37_never)."
  },
  {
   "property": "C38",
   "status": "proved",
   "theorems": [
    "C38_param"
   ],
   "note": ""
  },
  {
   "property": "C39",
   "status": "proved",
   "theorems": [
    "C39_body_once",
    "C39_taken_once"
   ],
   "note": ""
  },
  {
   "property": "C40",
   "status": "partial",
   "theorems": [
    "C40_refuted",
    "C40_partial",
    "C40_first_chunk_partial",
    "C40_form_refuted"
   ],
   "note": "Refuted for every parser that tells some data from an extension of it: only the first non-empty chunk of the body is parsed. Proved for bodies with at most one non-empty chunk; what is parsed in general is proved exactly. C40_form_refuted is the same for forms."
  },
  {
   "property": "C41",
   "status": "proved",
   "theorems": [
    "C41_grouping"
   ],
   "note": "Observed through a HashMap<String, Vec<String>> target of query_params and form, for every iteration order of the maps."
  },
  {
   "property": "C42",
   "status": "partial",
   "theorems": [
    "C42_alias_partial",
    "C42_refuted",
    "C42_any_key",
    "C42_no_key",
    "C42_partial"
   ],
   "note": "Refuted: a String target receives one of the keys, which one depends on the hash order. Proved for every other target, and for String with at most one key. C42_any_key: a String target gets any key that has a value, depending on the hash order; C42_no_key: an error if there is none. Enums with a tag and a content are a further exception (C81)."
  },
  {
   "property": "C43",
   "status": "partial",
   "theorems": [
    "C43_adjacent",
    "C43_refuted",
    "C43_overflow_partial",
    "C43_endless_partial",
    "C43_partial"
   ],
   "note": "Refuted: targets that read keys by deserialize_any (untagged and internally tagged enums, IgnoredAny) overflow the stack on any non-empty data. Proved for every other target type of the model (see DESIGN.md)."
  },
  {
   "property": "C44",
   "status": "partial",
   "theorems": [
    "C44_refuted",
    "C44_nonempty_lists_refuted",
    "C44_texts_partial",
    "C44_types_partial"
   ],
   "note": "Refuted: an empty value list panics (index out of range); so does an empty last text of a Vec<Option<T>>. Proved for maps without empty lists and texts, and for maps without empty lists when options are not inside of sequences; targets as in C43."
  },
  {
   "property": "C45",
   "status": "proved",
   "theorems": [
    "C45_struct",
    "C45_struct_or_error",
    "C45_missing_field",
    "C45_map",
    "C45_map_found"
   ],
   "note": ""
  },
  {
   "property": "C46",
   "status": "proved",
   "theorems": [
    "C46_first_value",
    "C46_all_values",
    "C46_unreadable"
   ],
   "note": ""
  },
  {
   "property": "C47",
   "status": "proved",
   "theorems": [
    "C47_parse",
    "C47_param",
    "C47_round_trip"
   ],
   "note": "C47_param is the same for Context::param."
  },
  {
   "property": "C48",
   "status": "proved",
   "theorems": [
    "C48_round_trip",
    "C48_standard",
    "C48_posted"
   ],
   "note": "C48_round_trip holds for every encoding (any choice of escapes, either hex case), C48_standard for the standard serializer, C48_posted from the posted bytes to the map the handler gets."
  },
  {
   "property": "C49",
   "status": "proved",
   "theorems": [
    "C49_interleavings",
    "C49_alone",
    "C49_same_response",
    "C49_others_irrelevant"
   ],
   "note": "The executions of the server model (any number of connections, any schedule, panics and disconnections) are exactly the interleavings of conversations of single connections; hyper and the executor are modelled by all their possible schedules."
  },
  {
   "property": "C50",
   "status": "partial",
   "theorems": [
    "C50_refuted",
    "C50_skipped_partial",
    "C50_partial"
   ],
   "note": "Refuted: the text after an empty one is skipped. Proved: what exactly is returned (C50_skipped_partial), and the claim for lists without empty texts."
  },
  {
   "property": "C51",
   "status": "partial",
   "theorems": [
    "C51_refuted",
    "C51_never_partial"
   ],
   "note": "Refuted, and always so for non-empty maps: the key is turned into serde's CowStrDeserializer, which visits a string whatever is asked for, and the visitors of numbers and bools reject strings."
  },
  {
   "property": "C52",
   "status": "proved",
   "theorems": [
    "C52_any_colons",
    "C52_panic_reason"
   ],
   "note": " C52_any_colons: colons anywhere, for calls whose path does not clash."
  },
  {
   "property": "C53",
   "status": "partial",
   "theorems": [
    "C53_refuted",
    "C53_after_star",
    "C53_never_after_star",
    "C53_partial"
   ],
   "note": "Refuted for routers mounted at a path ending in '*': a route that goes on after a '*' segment is never found by a request without the character '*', and by no request at all if only parameters stand before it (C53_after_star, C53_never_after_star). Proved without such mounts."
  },
  {
   "property": "C54",
   "status": "proved",
   "theorems": [
    "C54_caught_panics",
    "C54_clean",
    "C54_any_colons"
   ],
   "note": "C54_caught_panics gives the exact resolution for every history in which no call makes a path end or branch off right before a colon inside a segment (C54_clean: with colons at segment starts, every history). C54_any_colons: any history; results come from one table, and its paths without wildcard are found."
  },
  {
   "property": "C55",
   "status": "proved",
   "theorems": [
    "C55_panic"
   ],
   "note": ""
  },
  {
   "property": "C56",
   "status": "partial",
   "theorems": [
    "C56_refuted",
    "C56_never_absolute",
    "C56_partial"
   ],
   "note": "Refuted: an absolute directory loses its leading slash and is read relative to the working directory. Proved for relative directories written without redundant slashes. C56_never_absolute: no static handler ever reads an absolute path."
  },
  {
   "property": "C57",
   "status": "partial",
   "theorems": [
    "C57_refuted",
    "C57_partial",
    "C57_exact"
   ],
   "note": "Refuted: use_static(\"a/b\") answers /ab/secret and reads ab/secret, because the trie does not mark segment ends. Proved for requests that match the directory segment by segment. C57_exact: exactly which requests one use_static call answers, and with which file."
  },
  {
   "property": "C58",
   "status": "partial",
   "theorems": [
    "C58_text",
    "C58_content_partial",
    "C58_refuted",
    "C58_partial"
   ],
   "note": "Refuted: files are read as UTF-8 strings, others give 404. Proved for files that are UTF-8 text."
  },
  {
   "property": "C59",
   "status": "partial",
   "theorems": [
    "C59_refuted",
    "C59_raw_partial"
   ],
   "note": "Refuted: no decoding takes place. Proved: parameters are the segments exactly as written."
  },
  {
   "property": "C60",
   "status": "proved",
   "theorems": [
    "C60_end_to_end",
    "C60_any_router",
    "C60_own_route",
    "C60_any_colons"
   ],
   "note": ""
  },
  {
   "property": "C61",
   "status": "partial",
   "theorems": [
    "C61_refuted",
    "C61_partial",
    "C61_any_colons_partial"
   ],
   "note": "Refuted: header values are passed to HeaderValue::from_static, which panics unless they are visible ASCII. Proved: exactly these responses panic (C29_response covers all others)."
  },
  {
   "property": "C62",
   "status": "proved",
   "theorems": [
    "C62_root_middleware",
    "C62_any_colons"
   ],
   "note": "Paths are compared by their texts (segments without slashes) in the *_any_colons theorems, which hold for every accepted router; the others describe the result exactly where no path ends or branches off right before a colon inside a segment."
  },
  {
   "property": "C63",
   "status": "partial",
   "theorems": [
    "C63_any_colons_partial",
    "C63_unmatched_refuted",
    "C63_sent_refuted",
    "C63_partial"
   ],
   "note": "Refuted: 404s print no line, and 'Sent' is printed although an invalid header then panics. Proved for every answered request that has a handler."
  },
  {
   "property": "C64",
   "status": "proved",
   "theorems": [
    "C64_param_behind",
    "C64_query_behind",
    "C64_form_behind",
    "C64_json_behind",
    "C64_logger",
    "C64_param",
    "C64_query_read",
    "C64_query_missing",
    "C64_query",
    "C64_form_read",
    "C64_form_missing",
    "C64_form",
    "C64_json",
    "C64_form_broken"
   ],
   "note": "Struct targets for query and form, the error text as in C91 (C64_query_behind, C64_form_behind); any target for JSON. The theorems ending in _behind hold for every accepted router and any middlewares that hand on their input (paths without `*`); the others for routes without middlewares, `*` included."
  },
  {
   "property": "C65",
   "status": "proved",
   "theorems": [
    "C65_query",
    "C65_pairs",
    "C65_parse"
   ],
   "note": "form_urlencoded and UTF-8 decoding are modelled from their documentation; the specification in UrlSpec is independent of that model."
  },
  {
   "property": "C66",
   "status": "proved",
   "theorems": [
    "C66_lookup_cost",
    "C66_any_calls"
   ],
   "note": "Counts turns of the loops over child nodes; comparing two keys costs at most their lengths. C66_lookup_cost counts registrations of accepted tables, C66_any_calls all calls."
  },
  {
   "property": "C67",
   "status": "proved",
   "theorems": [
    "C67_not_blocked",
    "C67_finishes",
    "C67_endless"
   ],
   "note": "Handlers and middlewares are finite programs; one that loops or waits forever is outside the model. The framework takes no locks, which the model shows by having no shared state between connections."
  },
  {
   "property": "C68",
   "status": "partial",
   "theorems": [
    "C68_refuted",
    "C68_field_partial",
    "C68_map_partial"
   ],
   "note": "Refuted: enum fields are never read. Proved: they always fail when their key is present."
  },
  {
   "property": "C69",
   "status": "partial",
   "theorems": [
    "C69_refuted",
    "C69_texts_partial",
    "C69_result_partial",
    "C69_found_partial"
   ],
   "note": "Refuted: the fields of a flattened struct are not parsed. Proved: what is read in general, and agreement with the struct written out when the flattened fields are texts. One flattened field, a struct or a map."
  },
  {
   "property": "C70",
   "status": "proved",
   "theorems": [
    "C70_alike"
   ],
   "note": "For bodies of which at most one chunk is not empty (see C40), for every target type."
  },
  {
   "property": "C71",
   "status": "partial",
   "theorems": [
    "C71_refuted",
    "C71_other_methods"
   ],
   "note": "Refuted: HEAD gets 404 where GET gets 200. Proved: every other method gets 404 and nothing runs."
  },
  {
   "property": "C72",
   "status": "partial",
   "theorems": [
    "C72_refuted",
    "C72_unreachable",
    "C72_partial"
   ],
   "note": "Refuted by a route with a space. Proved: routes with a character outside path_char are never found; all others are found by some request (unless a router is mounted at a path ending in '*')."
  },
  {
   "property": "C73",
   "status": "proved",
   "theorems": [
    "C73_behind",
    "C73_added",
    "C73_get_mut"
   ],
   "note": "C73_added: middlewares that only add. C73_behind: arbitrary middlewares around the one that gives the value."
  },
  {
   "property": "C74",
   "status": "partial",
   "theorems": [
    "C74_refuted",
    "C74_names",
    "C74_partial"
   ],
   "note": "Refuted by a file name with a space. Proved: only names of path characters are ever read, and each of those can be requested. For a server with this one static directory; C35 covers others."
  },
  {
   "property": "C75",
   "status": "proved",
   "theorems": [
    "C75_stack"
   ],
   "note": "Frames of get_next_node; other frames of a request are constant in number."
  },
  {
   "property": "C76",
   "status": "proved",
   "theorems": [
    "C76_nodes"
   ],
   "note": "Nodes; each holds a part of the text of a path, one map of routes and its middlewares."
  },
  {
   "property": "C77",
   "status": "proved",
   "theorems": [
    "C77_behind",
    "C77_received",
    "C77_any_router"
   ],
   "note": ""
  },
  {
   "property": "C78",
   "status": "proved",
   "theorems": [
    "C78_calls",
    "C78_default",
    "C78_tables",
    "C78_order",
    "C78_served"
   ],
   "note": "Proved about the App value and the service of every connection. C78_tables: what each call of App registers."
  },
  {
   "property": "C79",
   "status": "proved",
   "theorems": [
    "C79_target",
    "C79_long",
    "C79_other",
    "C79_method"
   ],
   "note": "Proved about a model of http 0.2's Uri and Method (library behaviour, see DESIGN.md section 3). Targets that do not begin with '/' or are not '*' are an arbitrary function."
  },
  {
   "property": "C80",
   "status": "proved",
   "theorems": [
    "C80_pairs",
    "C80_sent",
    "C80_standard"
   ],
   "note": "Proved from the request line to query_params; C80_pairs connects it with the theorems about every target type (C41-C70)."
  },
  {
   "property": "C81",
   "status": "partial",
   "theorems": [
    "C81_refuted",
    "C81_either_partial",
    "C81_first_partial",
    "C81_last_partial",
    "C81_texts_partial",
    "C81_bare_partial"
   ],
   "note": "Refuted: if the content is iterated before the tag it is kept as a text and not parsed, so a number is an error in one hash order and read in another. Proved: which two outcomes are possible for any data, both happen, and the full statement if the contents are texts or there is no content."
  },
  {
   "property": "C82",
   "status": "proved",
   "theorems": [
    "C82_reads",
    "C82_accepts",
    "C82_one_value",
    "C82_same_document",
    "C82_served",
    "C82_deep",
    "C82_numerals"
   ],
   "note": "C82_reads: a value that is given fits the document; C82_accepts: if a value fits, it is given (up to the order of map entries); C82_one_value: no other fits. Floats are open: how a number text becomes a float, and an integer a float, are arbitrary functions. C82_deep: the limit of levels is exact for Value and all types that skip nothing."
  },
  {
   "property": "C83",
   "status": "partial",
   "theorems": [
    "C83_refuted",
    "C83_rest_refuted",
    "C83_partial"
   ],
   "note": "Refuted for bare numbers (the chunks 12 and 3 are read as 12) and for bodies that are not JSON (whatever follows a readable first chunk is ignored). Proved for the texts of all other documents."
  },
  {
   "property": "C84",
   "status": "partial",
   "theorems": [
    "C84_partial",
    "C84_echo_partial",
    "C84_refuted",
    "C84_unit_refuted",
    "C84_deep_refuted"
   ],
   "note": "Refuted for Option<Option<T>> (Some(None) becomes None), Option<()>, and for Values of more than 127 levels. Proved for all values without floats and without an Option of an Option, of a Value or of a unit, up to 127 levels, also from the response body to the handler it is posted to. Floats: serde_json's texts of floats are an arbitrary function."
  },
  {
   "property": "C85",
   "status": "partial",
   "theorems": [
    "C85_refuted",
    "C85_partial",
    "C85_grammar_partial",
    "C85_json_loose",
    "C85_ignored_refuted"
   ],
   "note": "Refuted: the members a struct ignores may contain bytes that are not UTF-8, and lone surrogates, at any depth (C85_ignored_refuted: every such text is accepted there). Proved for types whose structs deny unknown fields; for every type, proved up to the contents of strings (C85_grammar_partial)."
  },
  {
   "property": "C86",
   "status": "proved",
   "theorems": [
    "C86_behind",
    "C86_names",
    "C86_received",
    "C86_any_router"
   ],
   "note": "header_name is HeaderName::from_bytes of http 0.2; both variants about quotes in names."
  },
  {
   "property": "C87",
   "status": "proved",
   "theorems": [
    "C87_lines",
    "C87_read"
   ],
   "note": "Lines already cut at the colon and trimmed, as hyper appends them; the context is the one the handler starts with (C25)."
  },
  {
   "property": "C88",
   "status": "proved",
   "theorems": [
    "C88_request_line"
   ],
   "note": "From the method and target of the request line, the header lines and the calls on the App to the context of the handler. Which middlewares run in which order is C14 to C17 and C60."
  },
  {
   "property": "C89",
   "status": "partial",
   "theorems": [
    "C89_refuted",
    "C89_element_refuted",
    "C89_empty_refuted",
    "C89_partial",
    "C89_requested_partial"
   ],
   "note": "Refuted: empty texts are dropped, so Some(\"\") comes back as None, a vector loses its empty strings, and an empty string or vector is a missing field. C89_partial: exactly the structs come back whose fields have no empty texts, or get their value without any."
  },
  {
   "property": "C90",
   "status": "partial",
   "theorems": [
    "C90_refuted",
    "C90_routes_partial",
    "C90_requests_partial"
   ],
   "note": "Refuted: below a guarded path, a request for which nothing is registered there is answered by a wildcard above the guard, without it. C90_routes_partial: every route whose path starts with the guard's is protected, in every accepted router. C90_requests_partial: every request at or below the guard's path is either 404, or stopped by the guard, or answered by a wildcard registered above the guard."
  },
  {
   "property": "C91",
   "status": "proved",
   "theorems": [
    "C91_error",
    "C91_fault",
    "C91_enum_error",
    "C91_enum_fault",
    "C91_number"
   ],
   "note": "Sound and complete for every target; the texts of std and of the form deserializer are spelled out, those of serde (invalid type, unknown field, unknown variant, invalid length) are any function of the reason."
  },
  {
   "property": "C92",
   "status": "proved",
   "theorems": [
    "C92_onlookers"
   ],
   "note": "C92_onlookers; the Logger is such a middleware. A handler that succeeds without a response is excluded because of C31."
  },
  {
   "property": "C93",
   "status": "proved",
   "theorems": [
    "C93_call",
    "C93_silent",
    "C93_first"
   ],
   "note": "C93_call (one call), C93_first (a sequence of calls: the first one rejected), C93_silent (a text exactly when there is a panic). The piece a clash names is the stretch of the registered paths up to the next place where they branch or a segment ends; which of several such pieces is named when the new path continues with a parameter is left open."
  },
  {
   "property": "C94",
   "status": "partial",
   "theorems": [
    "C94_refuted"
   ],
   "note": "Refuted for every request: both methods are unimplemented!()."
  },
  {
   "property": "C95",
   "status": "proved",
   "theorems": [
    "C95_struct",
    "C95_or_error",
    "C95_twice",
    "C95_twice_text",
    "C95_own_names",
    "C95_renamed"
   ],
   "note": "Full statement for structs without flattened fields."
  },
  {
   "property": "C96",
   "status": "proved",
   "theorems": [
    "C96"
   ],
   "note": "For the types of Json.v; the texts of floats (serde_json's, not modelled) are assumed to be visible."
  },
  {
   "property": "C97",
   "status": "partial",
   "theorems": [
    "C97",
    "C97_twice",
    "C97_array",
    "C97_grammar",
    "C97_none",
    "C97_handler",
    "C97_handler_twice"
   ],
   "note": "Proved in full for from_slice of structs that are the whole body (C97, C97_twice, C97_array, C97_grammar, C97_none). Missing: Context::json for bodies in several chunks (C97_handler and C97_handler_twice need at most one non-empty chunk, see C83), and structs with aliases inside of other types."
  }
 ]
}