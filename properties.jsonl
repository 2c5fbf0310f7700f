{"id": "C01", "title": "Registration is accepted exactly when the path is well-formed, unambiguous and not a duplicate", "statement": "Registering a handler or a middleware, or mounting a router, on a router built by any earlier successful calls succeeds if and only if: every '*' in the path is a whole last segment; no already registered path parts from the new one at a place where one of the two continues with a ':param'; for a handler, the same method is not already registered for the same path; for a mount, nothing is registered at or below the mount path. Otherwise the call panics. (A ':' inside a segment is allowed as long as no other registered path ends or branches off right before it; C23 is about the others.)", "quantifier": "every sequence of registration calls (nested mounts included), every path such that no registered path ends or branches off right before a colon inside a segment, every method, handler and middleware", "why_tests_cant": "the accept/reject decision depends on the whole registration history and on how nodes were split before; tests sample a few pairs", "anchors": ["src/router/route_trie.rs: RouteTrie::insert_route, RouteTrie::insert_middleware, RouteTrie::insert_sub_route, Node::process_insertion, Node::get_insertion_action", "src/router.rs: Router"]}
{"id": "C02", "title": "Routes that no request path can match both of can be registered together", "statement": "If two route paths are such that no request path matches both segment by segment, then registering both (in either order) succeeds.", "quantifier": "every pair of well-formed route paths", "why_tests_cant": "universally quantified over pairs of paths; the unit tests only try a handful of conflicts", "anchors": ["src/router/route_trie.rs: Node::get_insertion_action, Node::process_insertion"]}
{"id": "C03", "title": "A registered literal route is found by its own path", "statement": "After any successful sequence of registrations containing a route for method m at a path with no parameter or wildcard segment, a lookup of that path returns a resource whose handler for m is the registered one, with no parameters bound.", "quantifier": "every successful registration history (colons anywhere) and every literal route in it", "why_tests_cant": "node splitting depends on every other path registered before and after; all histories must be covered", "anchors": ["src/router/route_trie.rs: RouteTrie::search_route, Node::get_next_node, RouteTrie::insert_route"]}
{"id": "C04", "title": "A parameter route is found for every value of its parameters, bound verbatim", "statement": "After any successful sequence of registrations containing a route at a path made of literal and ':name' segments, a request path obtained by replacing each ':name' by any non-empty text without '/' is resolved to that route, and each name is bound to the text that replaced it (the leftmost one if a name is repeated).", "quantifier": "every successful registration history (colons anywhere), every literal/parameter route in it, every instantiation of its parameters", "why_tests_cant": "infinite set of parameter values times all histories", "anchors": ["src/router/route_trie.rs: Node::get_next_node, Node::is_param, RouteTrie::search_route", "src/context.rs: Context::param"]}
{"id": "C05", "title": "A wildcard route answers every request below its prefix unless a more specific registration answers it", "statement": "After any successful sequence of registrations containing a registration at prefix/* and no router mounted at a path ending in '*', every request path that extends the prefix (parameters instantiated) by one or more segments is resolved, either to that registration or to one strictly below the same prefix.", "quantifier": "every successful registration history, every wildcard route in it, every request below its prefix", "why_tests_cant": "backtracking out of failed literal branches must work from every depth and for every sibling set", "anchors": ["src/router/route_trie.rs: Node::get_next_node (wildcard branch), RouteTrie::search_route"]}
{"id": "C06", "title": "A request is only answered by a route that matches it segment by segment", "statement": "If a request path is resolved to a route registered at some path, then the request has as many segments as that path (at least as many for a trailing '*'), every literal segment is equal and every parameter or wildcard segment absorbs one (or the remaining) request segments.", "quantifier": "every successful registration history and every request path", "why_tests_cant": "soundness over all tables and all request paths; the trie stores segment boundaries and in-segment splits in the same child list", "anchors": ["src/router/route_trie.rs: Node::get_next_node, Node::process_insertion"]}
{"id": "C07", "title": "Lookup is exactly the specified resolution", "statement": "For any router built by successful registrations, a lookup returns a result exactly when the specification resolves the request: read the request along the registered paths; prefer the end of the whole request, then a wildcard right below it, then the wildcard at the longest prefix read; the result carries exactly the routes registered at the resolved path, the middlewares of its prefixes, and the parameters read.", "quantifier": "every successful registration history (such that no registered path ends or branches off right before a colon inside a segment) and every request path", "why_tests_cant": "full functional correctness of lookup; not enumerable", "anchors": ["src/router/route_trie.rs: RouteTrie::search_route, Node::get_next_node", "src/router.rs: Router::search_route"]}
{"id": "C08", "title": "Lookup does not depend on registration order", "statement": "If two successful registration sequences (handlers and middlewares, no two middlewares on the same path) are permutations of one another, every request path gets the same routes, middlewares and parameters from both.", "quantifier": "every pair of permuted successful registration sequences and every request path", "why_tests_cant": "n! orders; the trie shape does differ between orders", "anchors": ["src/router/route_trie.rs: Node::process_insertion, Node::get_next_node"]}
{"id": "C09", "title": "Later registrations never change what the own path of a literal route resolves to", "statement": "Once a literal route is registered, no further successful registration of handlers, middlewares or routers (other than mounting at '/') changes the handler found for that path and method.", "quantifier": "every successful history, every successful continuation", "why_tests_cant": "continuations are unbounded", "anchors": ["src/router/route_trie.rs: Node::process_insertion, RouteTrie::insert_sub_route, Node::get_next_node"]}
{"id": "C10", "title": "Redundant slashes are irrelevant", "statement": "Leading, trailing and repeated '/' in a registered path, a mount path or a request path never change the outcome: two paths with the same non-empty segments behave identically everywhere.", "quantifier": "every router, every pair of paths with the same non-empty segments, every operation", "why_tests_cant": "all paths and all tries", "anchors": ["src/router/route_trie.rs: insert_route, insert_middleware, insert_sub_route, search_route (split('/').filter)"]}
{"id": "C11", "title": "Lookup never panics", "statement": "Looking up any request path, with any Unicode content, in any router never panics: no slice is taken off a character boundary and no element is removed from an empty list.", "quantifier": "every router (reachable or not) and every request path", "why_tests_cant": "byte-offset slicing of UTF-8 strings must be safe for all strings", "anchors": ["src/router/route_trie.rs: Node::get_next_node, RouteTrie::search_route"]}
{"id": "C12", "title": "Registration panics only for the documented reasons", "statement": "Registering handlers, middlewares or routers never hits an out-of-boundary slice, an index error or unreachable!(): the only panics are the '*' checks, the ambiguity error, the duplicate method error and the mount conflict.", "quantifier": "every router (reachable or not), every path with any Unicode content", "why_tests_cant": "byte offsets are mixed with char iteration; every string must be covered", "anchors": ["src/router/route_trie.rs: Node::process_insertion, Node::get_insertion_action"]}
{"id": "C13", "title": "Exactly the middlewares registered on a prefix of the resolved path apply", "statement": "The middlewares returned for a resolved request are, with multiplicity, the root middlewares and those registered on a path whose text (slashes removed) is a prefix of the resolved route's; no other middleware is returned and none is missing.", "quantifier": "every successful registration history and every request path", "why_tests_cant": "accumulation happens across node splits and backtracking", "anchors": ["src/router/route_trie.rs: Node::get_next_node, RouteTrie::search_route, RouteTrie::insert_middleware"]}
{"id": "C14", "title": "A middleware applies only below its own path, segment by segment", "statement": "A middleware registered with use_service_to(p, m) applies to a request only if the segments of p are matched by the first segments of the request.", "quantifier": "every successful registration history and every request path", "why_tests_cant": "all pairs of sibling names sharing a prefix", "anchors": ["src/router/route_trie.rs: Node::get_next_node, RouteTrie::insert_middleware", "src/router.rs: Router::use_service_to"]}
{"id": "C15", "title": "Middleware order is determined: root first, then from the innermost path outwards", "statement": "The middlewares of a resolved request come in this order: root middlewares in registration order, then those of the resolved path itself, then those of shorter and shorter prefixes; within one path, in registration order.", "quantifier": "every successful registration history and every request path", "why_tests_cant": "depends on recursion order at every depth", "anchors": ["src/router/route_trie.rs: Node::get_next_node, RouteTrie::search_route"]}
{"id": "C16", "title": "An outer middleware runs before an inner one", "statement": "If m1 is registered on a path and m2 on a longer path below it, then for every request to which both apply, m1 comes before m2.", "quantifier": "every successful registration history and every request path", "why_tests_cant": "depth of nesting is unbounded", "anchors": ["src/router/route_trie.rs: Node::get_next_node"]}
{"id": "C17", "title": "A middleware applied to the path '/' is effective", "statement": "use_service_to(\"/\", m) has the same effect as use_service(m).", "quantifier": "every router and every path with no non-empty segment", "why_tests_cant": "all routers; silent loss is not visible as a failure", "anchors": ["src/router/route_trie.rs: RouteTrie::insert_middleware, RouteTrie::insert_default_middleware"]}
{"id": "C18", "title": "Mounting a router is the same as registering its entries under the prefix", "statement": "After successfully mounting a router with at least one entry at a path p other than the root and without '*', the router is the same as if p followed by the path of each entry had been registered directly on the outer router; so every lookup, now and after any later calls, behaves the same. (Where a router was mounted at the root of the mounted one, its entries count in the place of those before it. An empty router, or p ending in '*', is different: examples beside the theorem.)", "quantifier": "every pair of successful histories with a non-empty mounted router, every mount path other than the root and without '*', every request path and all later calls", "why_tests_cant": "structural sharing of subtrees versus one-by-one insertion, for all tables", "anchors": ["src/router/route_trie.rs: RouteTrie::insert_sub_route", "src/router.rs: Router::use_router", "src/app.rs: App::scope"]}
{"id": "C19", "title": "Mounting a router never discards what was registered before", "statement": "After a successful mount, every route found before is still found.", "quantifier": "every router, every mount path, every mounted router", "why_tests_cant": "must hold for every mount path, including '/'", "anchors": ["src/router/route_trie.rs: RouteTrie::insert_sub_route", "src/app.rs: App::scope, App::use_router"]}
{"id": "C20", "title": "Methods are independent", "statement": "Registering a handler for a method never changes which handler another method gets at any request path that was already answered at that path, and a lookup gives a handler for a method only if that very method was registered at the resolved path.", "quantifier": "every successful history, every method pair (extension methods included), every request", "why_tests_cant": "unbounded methods and histories", "anchors": ["src/router/resource.rs: Resource::add_route, Resource::get_route", "src/router/route_trie.rs: RouteTrie::insert_route"]}
{"id": "C21", "title": "A literal route takes precedence over a wildcard, and the deepest wildcard wins", "statement": "When a request is read completely along registered paths to a place with a registration, that one is chosen even if wildcards also cover it; otherwise the wildcard with the longest read prefix is chosen.", "quantifier": "every successful history and every request path", "why_tests_cant": "all nestings of wildcards and literals", "anchors": ["src/router/route_trie.rs: Node::get_next_node"]}
{"id": "C22", "title": "A wildcard route prefix/* also answers the bare prefix", "statement": "If prefix/* has a route and nothing else is registered at prefix, a request for the prefix itself is answered by the wildcard route, whatever the prefix.", "quantifier": "every successful history, every wildcard route", "why_tests_cant": "the prefix ranges over root, literal and parameter endings", "anchors": ["src/router/route_trie.rs: Node::get_next_node, RouteTrie::search_route"]}
{"id": "C23", "title": "A colon inside a segment is an ordinary character", "statement": "A registered path segment that contains ':' but does not start with it matches only request segments equal to it.", "quantifier": "every successful history and every request path", "why_tests_cant": "depends on which other paths split the node, and when", "anchors": ["src/router/route_trie.rs: Node::is_param, Node::process_insertion (SplitNode, SplitKey)"]}
{"id": "C24", "title": "A rejected registration leaves the existing routes untouched", "statement": "If a registration panics (and the panic is caught), every literal route registered before is still resolved to the same handlers.", "quantifier": "every successful history and every rejected call after it", "why_tests_cant": "crash point inside a mutation, for all histories", "anchors": ["src/router/route_trie.rs: RouteTrie::insert_route, Node::process_insertion", "src/router/resource.rs: Resource::add_route"]}
{"id": "C25", "title": "Unknown paths and methods get 404 and run nothing", "statement": "If the lookup has no result, or the resolved resource has no handler for the request method, the response is status 404 with body '404 Not Found' and no middleware or handler is executed.", "quantifier": "every router, request, app state, and every behaviour of middlewares and handlers", "why_tests_cant": "all programs as middlewares/handlers", "anchors": ["src/app.rs: AppServer::resolve_endpoint, page_not_found"]}
{"id": "C26", "title": "Middlewares wrap the handler like an onion, each entered exactly once in order", "statement": "If every middleware calls next exactly once, execution enters the middlewares in list order, then runs the handler once, then resumes the middlewares in reverse order; each sees the context its predecessor passed on and the result its successor returned.", "quantifier": "every number of middlewares and every behaviour of them and of the handler", "why_tests_cant": "unbounded chains, arbitrary middleware code", "anchors": ["src/app.rs: EndpointExecutor::next", "src/router/route_trie.rs: RouteValueResult::get_middlewares"]}
{"id": "C27", "title": "A middleware that does not call next stops the chain", "statement": "If a middleware returns without calling next, no later middleware and no handler runs, and the earlier middlewares resume with its result.", "quantifier": "every chain, every position of the short-circuiting middleware", "why_tests_cant": "unbounded chains", "anchors": ["src/app.rs: EndpointExecutor::next"]}
{"id": "C28", "title": "An error result becomes a 500 carrying the error text", "statement": "If the chain returns an error, the response has status 500, no headers of the framework's own, and the body is the error's display text, whatever the context contained.", "quantifier": "every error value, every chain", "why_tests_cant": "all errors and programs", "anchors": ["src/app.rs: AppServer::resolve_endpoint", "src/error/obsidian_error.rs: ObsidianError::fmt"]}
{"id": "C29", "title": "A successful response is delivered faithfully; the last value set for a header name wins", "statement": "If the chain returns a context holding a response, the client gets its status and body unchanged, and for every header name the last value put in the response's header list (names compared without case); a context without response gives 200 with an empty body.", "quantifier": "every response (status, body, header list)", "why_tests_cant": "all header lists", "anchors": ["src/app.rs: AppServer::resolve_endpoint", "src/router/response.rs: Response::headers, Response::set_header"]}
{"id": "C30", "title": "Every header added to a response reaches the client", "statement": "Each (name, value) pair added with set_header/with_header/set_headers is present in the response sent to the client.", "quantifier": "every response header list", "why_tests_cant": "all header lists, including repeated names such as Set-Cookie", "anchors": ["src/app.rs: AppServer::resolve_endpoint (headers loop)", "src/router/response.rs: Response::set_header"]}
{"id": "C31", "title": "The Logger middleware is transparent", "statement": "Adding the Logger middleware to a chain changes neither the result of the chain nor the response sent.", "quantifier": "every chain and every handler result", "why_tests_cant": "all handler results, including contexts without a response", "anchors": ["src/middleware/logger.rs: Logger::handle", "src/app.rs: AppServer::resolve_endpoint, internal_server_error"]}
{"id": "C32", "title": "The app state is visible to every matched request", "statement": "When an app state is set, the first middleware (or the handler) of every matched request sees it in the context's typed data; other typed data of the request is unchanged; without app state nothing is added. A handler behind middlewares that leave the type of the state alone finds it, too.", "quantifier": "every request, router and state value, every extension content; for handlers behind middlewares: every accepted router, every middlewares that hand on the value of that type", "why_tests_cant": "all requests", "anchors": ["src/app.rs: App::set_app_state, AppServer::resolve_endpoint", "src/context.rs: Context::add, Context::get"]}
{"id": "C33", "title": "Response building laws", "statement": "with_status sets only the status and the last one wins; headers accumulate in call order; body is changed only by body setters; building with ok() stores exactly the built response in the context and leaves the request part untouched.", "quantifier": "every sequence of builder calls", "why_tests_cant": "unbounded call sequences", "anchors": ["src/context.rs: ResponseBuilder", "src/router/response.rs: Response"]}
{"id": "C34", "title": "Responder conversions give the documented status, body and content type", "statement": "Each supported return type produces the specified status, body and content type (String and &str: 200 text/plain; None: 404 'Not Found'; StatusCode: that status and empty body; (StatusCode, body); Vec<u8>: 200 and the JSON array of its bytes).", "quantifier": "every value of each responder type", "why_tests_cant": "all strings, byte vectors and statuses", "anchors": ["src/router/responder.rs: Responder impls", "src/router/response_body.rs: ResponseBody impls"]}
{"id": "C35", "title": "Static serving maps a request below the virtual path to the file below the directory", "statement": "For use_static_to(v, d) on the root router, a GET request v/rest resolved to it reads exactly the file d/rest (segments joined by '/'), answers 200 with its content if it can be read and 404 with the error text otherwise.", "quantifier": "every virtual path, directory and request path", "why_tests_cant": "all paths", "anchors": ["src/router.rs: Router::use_static_to, static_virtual_file_handler, static_dir_file_handler", "src/router/response.rs: Response::file"]}
{"id": "C36", "title": "Static serving never leaves the served directory", "statement": "The file path opened for any request resolved to a static route, after lexical resolution of '.' and '..', lies inside the served directory.", "quantifier": "every directory and request path", "why_tests_cant": "all request paths", "anchors": ["src/router.rs: static_virtual_file_handler, static_dir_file_handler"]}
{"id": "C37", "title": "Static serving works the same inside a mounted router", "statement": "A router with use_static_to(v, d) mounted at p serves p/v/rest from d/rest.", "quantifier": "every mount path, virtual path, directory and request", "why_tests_cant": "all mount depths", "anchors": ["src/router.rs: Router::use_static_to, static_virtual_file_handler", "src/app.rs: App::scope"]}
{"id": "C38", "title": "Context::param: value, parse error or missing", "statement": "param(k) returns the parsed value if k is bound and its text parses, ParamError naming k if it is bound and does not parse, and NoneError if it is not bound; it never panics.", "quantifier": "every parameter map, key and target type", "why_tests_cant": "all maps, keys and parsers", "anchors": ["src/context.rs: Context::param"]}
{"id": "C39", "title": "The request body is consumed exactly once", "statement": "After take_body, form or json, the context's body is empty; a second form/json sees an empty body; the other parts of the context are unchanged.", "quantifier": "every context and body", "why_tests_cant": "all bodies and contexts", "anchors": ["src/context.rs: Context::take_body, Context::form, Context::json"]}
{"id": "C40", "title": "form and json do not depend on how the body was split into chunks", "statement": "Two request bodies with the same bytes give the same form()/json() result, however the bytes were divided into transport chunks.", "quantifier": "every byte string and every chunking of it", "why_tests_cant": "all chunkings; tests only send one chunk", "anchors": ["src/context.rs: Context::form, Context::json (buf.chunk())"]}
{"id": "C41", "title": "Query parsing groups values by key in order and drops empty ones", "statement": "The map handed to the deserializer has exactly the keys with at least one non-empty value, each with its non-empty values in order of appearance.", "quantifier": "every query string / form body", "why_tests_cant": "all byte strings", "anchors": ["src/context.rs: Context::parse_queries"]}
{"id": "C42", "title": "Deserialization does not depend on hash map iteration order", "statement": "For a given target type, the outcome (value, or failure) of query_params/form is the same for every iteration order of the intermediate hash maps.", "quantifier": "every query, target type and permutation of the map entries", "why_tests_cant": "hash seeds are random per process; all orders must agree", "anchors": ["src/router/req_deserializer.rs: FromMap, FormDeserializer", "src/context.rs: Context::parse_queries"]}
{"id": "C43", "title": "Reading query parameters or a form never panics", "statement": "query_params and form return a value or an error, never panic, for every input bytes and every supported target type.", "quantifier": "every byte string and target type", "why_tests_cant": "all inputs and types", "anchors": ["src/context.rs: Context::query_params, Context::form, Context::parse_queries", "src/router/req_deserializer.rs: FormValueDeserializer, FromSeq"]}
{"id": "C44", "title": "from_cow_map never panics", "statement": "The public from_cow_map returns a value or an error for every map.", "quantifier": "every map from strings to string lists, every target type", "why_tests_cant": "all maps, including empty value lists and empty strings", "anchors": ["src/router/req_deserializer.rs: from_cow_map, FormValueDeserializer (self.input[0]), FromSeq::next_element_seed"]}
{"id": "C45", "title": "Struct targets: fields are filled from their key, missing ones defaulted or reported, unknown keys ignored", "statement": "For a struct target, success means every field present in the query holds its deserialized values, absent optional fields are None, absent defaulted fields have the default; it fails if a required field is absent or a present field does not deserialize; keys that name no field have no influence.", "quantifier": "every query and struct description", "why_tests_cant": "all inputs and struct shapes", "anchors": ["src/router/req_deserializer.rs: FormDeserializer::deserialize_map, FromMap", "src/context.rs: Context::query_params"]}
{"id": "C46", "title": "Scalar fields take the first value; sequences take all values in order", "statement": "A scalar field with several values takes the first; a Vec field gets every non-empty value, deserialized, in order, and fails if any fails.", "quantifier": "every list of values and element type", "why_tests_cant": "unbounded lists", "anchors": ["src/router/req_deserializer.rs: FromSeq::next_element_seed, FormValueDeserializer"]}
{"id": "C47", "title": "Integer fields accept exactly the decimal numerals of their range", "statement": "An integer field of a given width and sign accepts exactly optional sign plus digits whose value is in range, and the decimal rendering of every in-range integer is read back as that integer.", "quantifier": "every text, every integer type", "why_tests_cant": "unbounded texts; overflow boundaries", "anchors": ["src/router/req_deserializer.rs: from_string_forms_impl", "src/context.rs: Context::param"]}
{"id": "C48", "title": "URL encoding round-trips", "statement": "For every list of key/value pairs, a query that is its standard form encoding is parsed back to exactly these pairs.", "quantifier": "every list of pairs of Unicode texts", "why_tests_cant": "all contents, including '&', '=', '+', '%' and non-ASCII", "anchors": ["src/context.rs: Context::parse_queries (form_urlencoded::parse)"]}
{"id": "C49", "title": "Concurrent requests do not influence one another", "statement": "For every interleaving of the execution steps of any number of in-flight requests, each request gets the response it would get alone.", "quantifier": "every set of requests and every schedule", "why_tests_cant": "all schedules", "anchors": ["src/app.rs: App::listen, AppServer::resolve_endpoint, EndpointExecutor::next"]}
{"id": "C50", "title": "Sequences of optional values keep every element", "statement": "A Vec<Option<T>> target has one element per value: None for an empty value, Some for a non-empty one.", "quantifier": "every value list given to from_cow_map", "why_tests_cant": "all lists", "anchors": ["src/router/req_deserializer.rs: FormValueDeserializer::deserialize_option, FromSeq::next_element_seed"]}
{"id": "C51", "title": "Map targets work for every scalar key type", "statement": "A map target whose key type is an integer or bool is filled when every key text parses as that type.", "quantifier": "every map and scalar key type", "why_tests_cant": "all keys", "anchors": ["src/router/req_deserializer.rs: from_string_forms_key_impl"]}
{"id": "C52", "title": "Each rejected registration panics for the reason its path deserves", "statement": "A rejected call panics with 'star in name' when some '*' is inside a segment met before any other conflict, 'star not last' when a '*' segment is followed by another, 'ambiguous' when the path first parts from a registered one at a parameter, 'duplicate' when only the method is taken, 'mount conflict' when only a mount target is occupied; exactly one reason applies, decided by the registered paths alone.", "quantifier": "every successful registration history (such that no registered path ends or branches off right before a colon inside a segment), every further call", "why_tests_cant": "the reason depends on which of several conflicts is met first, for every combination of registered paths", "anchors": ["src/router/route_trie.rs: RouteTrie::insert_route, insert_sub_route, Node::process_insertion, Resource::add_route"]}
{"id": "C53", "title": "Every accepted route can be reached", "statement": "For every route of an accepted history there is a request that matches its path segment by segment and is answered by its handler.", "quantifier": "every successful registration history, every route in it", "why_tests_cant": "a route could be accepted yet shadowed by a combination of other registrations", "anchors": ["src/router/route_trie.rs: RouteTrie::search_route", "src/router.rs: Router::use_router"]}
{"id": "C54", "title": "A router whose registration panics are caught stays consistent", "statement": "After any sequence of registrations in which panicking calls are caught and the router is used on, lookups still are exactly the resolution of a route table determined by the calls (what each rejected call leaves behind included).", "quantifier": "every sequence of calls, successful or not, every request", "why_tests_cant": "the state after a panic in the middle of an insertion depends on where it stopped", "anchors": ["src/router/route_trie.rs: Node::process_insertion, RouteTrie::insert_route"]}
{"id": "C55", "title": "A panic in user code ends the request there", "statement": "If a handler or middleware panics, no further user code runs: not the rest of the chain, not what earlier middlewares do after next; the request ends without a response, and the panic is exactly the one raised.", "quantifier": "every chain, every place and moment of the panic", "why_tests_cant": "panics can be raised in any phase of any middleware; tests panic in one or two places", "anchors": ["src/app.rs: EndpointExecutor::next, AppServer::resolve_endpoint"]}
{"id": "C56", "title": "The directory given to use_static_to is the directory read", "statement": "For use_static_to(v, d) the file read for v/rest is d/rest as written, for absolute and relative d alike.", "quantifier": "every directory text and request", "why_tests_cant": "tests use one relative directory", "anchors": ["src/router.rs: Router::static_virtual_file_handler"]}
{"id": "C57", "title": "use_static serves only files below its directory", "statement": "For use_static(d), every request without '..' that is answered by it reads a file whose path starts with the segments of d.", "quantifier": "every directory and request path", "why_tests_cant": "which requests reach the handler depends on how the route trie splits paths", "anchors": ["src/router.rs: Router::use_static, static_dir_file_handler"]}
{"id": "C58", "title": "Static files are delivered byte for byte", "statement": "A readable file is answered with status 200 and exactly its bytes.", "quantifier": "every file content", "why_tests_cant": "tests serve a few text files", "anchors": ["src/router/response.rs: Response::file", "src/router.rs: static_virtual_file_handler"]}
{"id": "C59", "title": "Percent-encoded path parameters arrive decoded", "statement": "When a client writes a text percent-encoded in the segment of a parameter, the handler reads the original text as the parameter.", "quantifier": "every text and every encoding of it, every route with a parameter", "why_tests_cant": "all texts; tests use plain ASCII segments", "anchors": ["src/app.rs: AppServer::resolve_endpoint (req.uri().path())", "src/router/route_trie.rs: RouteTrie::search_route"]}
{"id": "C60", "title": "The response of a matched request is determined by table, chain and reply rules", "statement": "A matched request runs exactly the chain of the middlewares of its registration followed by its handler, from a context holding the request, its path parameters and the app state; what happens is what the chain does, and the response is the reply to the chain's result.", "quantifier": "every server, request and app state, every behaviour of handlers and middlewares", "why_tests_cant": "composition of routing, chain and reply over all programs", "anchors": ["src/app.rs: AppServer::resolve_endpoint, EndpointExecutor::next", "src/router/route_trie.rs: RouteTrie::search_route"]}
{"id": "C61", "title": "Sending a response never panics", "statement": "Whatever response a handler stores in the context, the client is sent a response.", "quantifier": "every response (status, body, header list)", "why_tests_cant": "header values are arbitrary strings; tests use plain ASCII ones", "anchors": ["src/app.rs: AppServer::resolve_endpoint", "src/router/response.rs: Response::set_header"]}
{"id": "C62", "title": "A middleware registered first on the root wraps every matched request and nothing else", "statement": "Registering a root middleware before all other calls makes it the outermost layer of the chain of every request that has a handler; requests without handler are still answered 404 without running it; nothing else changes.", "quantifier": "every history without a router mounted at the root, every request and app state", "why_tests_cant": "adding a value to the root node could change which node answers; tests look at a few paths", "anchors": ["src/app.rs: App::use_service, App::default", "src/router/route_trie.rs: RouteTrie::insert_default_middleware, search_route"]}
{"id": "C63", "title": "The default app logs every request with the status sent", "statement": "An app made with App::default prints, for every request, a line with its method and uri, and after handling it a line with the status sent to the client, or with the error.", "quantifier": "every server, request, and behaviour of handlers and middlewares", "why_tests_cant": "the lines depend on arbitrary handlers and on the position of the Logger in the chain; tests look at none", "anchors": ["src/app.rs: App::default, AppServer::resolve_endpoint", "src/middleware/logger.rs: Logger::handle"]}
{"id": "C64", "title": "Input errors reach the client", "statement": "A handler that reads a parameter, a query or a form with ? either goes on with the values of the request or the client gets a 500 with the text of the error (missing input, unparsable parameter, missing field).", "quantifier": "every accepted server, every request to a route, every list of middlewares on the way that hand on the input they were given (the text of the error is that of the handler if they also return errors, as Logger does), every parser and struct, every rest of the handler", "why_tests_cant": "combines routing, reading and replying over all requests", "anchors": ["src/context.rs: Context::param, query_params, form", "src/error/obsidian_error.rs: impl Display for ObsidianError", "src/app.rs: AppServer::resolve_endpoint, internal_server_error"]}
{"id": "C65", "title": "Malformed query and form data", "statement": "Any bytes are read as pairs: parts between '&', split at the first '=', '+' as a space, valid percent escapes decoded, invalid ones kept as they are, ill-formed UTF-8 replaced by U+FFFD per maximal ill-formed part; reading never fails because of malformed data.", "quantifier": "every byte string", "why_tests_cant": "all malformed inputs; tests use well-formed ones", "anchors": ["src/context.rs: Context::parse_queries, query_params"]}
{"id": "C66", "title": "The cost of a lookup is bounded by routes times path length", "statement": "Looking up a path examines at most (number of registrations) x (length of the path + 1) child nodes: no path makes the search backtrack exponentially.", "quantifier": "every sequence of registration calls, also with failing calls whose panic is caught, every request path", "why_tests_cant": "a worst case over all tables and adversarial paths", "anchors": ["src/router/route_trie.rs: Node::get_next_node, RouteTrie::search_route"]}
{"id": "C67", "title": "Requests in flight are not blocked and get finished", "statement": "Whatever other connections are doing, a request being handled can always be finished by steps of its own connection alone; and in a server that runs forever every received request whose connection keeps getting its turn is answered, or panics, or loses its client. No request waits for a lock held by another.", "quantifier": "every router, app state, interleaving of any number of connections, finite or endless; every file content and every answer to user actions; handlers are any terminating programs", "why_tests_cant": "liveness over all infinite schedules", "anchors": ["src/app.rs: App::listen, AppServer::resolve_endpoint"]}
{"id": "C68", "title": "Enum fields are read from the names of their variants", "statement": "A field (or map value) whose type is an enum of unit variants is read from a query that gives the name of one of the variants, as the urlencoded serde formats do.", "quantifier": "every enum, every variant, every query naming it", "why_tests_cant": "all enums and queries; the failure is for every text", "anchors": ["src/router/req_deserializer.rs: FormValueDeserializer (forward_to_deserialize_any, enum)"]}
{"id": "C69", "title": "Flattened fields are read like written-out ones", "statement": "A struct with a #[serde(flatten)] field reads the same values as the struct with the inner fields written out; a flattened map gets exactly the keys that are not fields.", "quantifier": "every query, every outer and inner field list with distinct names", "why_tests_cant": "all struct shapes and queries", "anchors": ["src/router/req_deserializer.rs: FormDeserializer::deserialize_any, FormValueDeserializer::deserialize_any"]}
{"id": "C70", "title": "Forms and query strings are read alike", "statement": "A form whose body is the text of a query string gives the same value or error as query_params on a request with that query string, for every target type.", "quantifier": "every text, target type and hash iteration order; bodies arriving in one chunk", "why_tests_cant": "all texts and all types; malformed data included", "anchors": ["src/context.rs: Context::query_params, Context::form, Context::parse_queries"]}
{"id": "C71", "title": "HEAD is answered like GET", "statement": "A HEAD request gets the status of the GET request for the same path. (False: no route can be registered for HEAD; every request with a method other than GET, POST, PUT, PATCH, DELETE gets 404 without running any middleware or handler.)", "quantifier": "every sequence of registrations through the API, every request with another method, every app state", "why_tests_cant": "all routers and all extension methods", "anchors": ["src/router.rs: Router::get, post, put, patch, delete", "src/app.rs: resolve_endpoint"]}
{"id": "C72", "title": "Every accepted route can be requested", "statement": "For every route that registration accepts there is an HTTP request that reaches its handler. (False for paths with characters that cannot occur in a URI path: no percent-decoding takes place; true for all others unless a router is mounted at a path ending in '*'.)", "quantifier": "every sequence of accepted registrations, every route, every request path that http::Uri can deliver", "why_tests_cant": "all route sets and all characters; the negative part is about all requests", "anchors": ["src/app.rs: App::listen, AppServer::resolve_endpoint", "src/router/route_trie.rs: search_route"]}
{"id": "C73", "title": "Typed data travels along the middlewares", "statement": "Behind middlewares that add values to the context, the handler gets for each type the value added last, or the app state, or what the request carried; values of other types and all other parts of the context are unchanged. get_mut changes the value of its type only. Behind any middlewares, the handler gets the value one of them gave to next, if those after it leave its type alone.", "quantifier": "every list of added values, every router, request and app state; every accepted router and all middlewares of which one gives the value, none before it leaves it out, and those after it hand it on", "why_tests_cant": "all middleware chains and types", "anchors": ["src/context.rs: Context::add, get, get_mut", "src/app.rs: EndpointExecutor::next, resolve_endpoint"]}
{"id": "C74", "title": "Every file below a static directory can be fetched", "statement": "For every file below the directory of use_static_to there is a request that reads it. (False for names with characters that cannot occur in a URI path; true for all others.)", "quantifier": "every virtual path, directory, file name and request path", "why_tests_cant": "all file names; the negative part is about all requests", "anchors": ["src/router.rs: Router::use_static_to, static_virtual_file_handler"]}
{"id": "C75", "title": "The recursion of a lookup is bounded by the routes, not by the request", "statement": "The number of nested calls of the recursive search is at most one more than the length of the longest registered path (with the paths its routers are mounted at). No request, however long, can exhaust the stack.", "quantifier": "every sequence of registration calls, also with failing calls whose panic is caught, every request path", "why_tests_cant": "all request paths of any length; a stack overflow aborts the process", "anchors": ["src/router/route_trie.rs: Node::get_next_node, RouteTrie::search_route"]}
{"id": "C76", "title": "The router's size is linear in the registered paths", "statement": "A trie has at most 1 + (number of calls) + (number of segments of their paths) nodes, whatever the order of the calls and whichever of them fail; requests do not change it.", "quantifier": "every sequence of registration calls, mounted routers included", "why_tests_cant": "node splitting could multiply nodes for some order of paths", "anchors": ["src/router/route_trie.rs: Node::process_insertion, RouteTrie::insert_route, insert_middleware, insert_sub_route"]}
{"id": "C77", "title": "What a handler writes is what the client receives", "statement": "A handler that starts a reply with any of build, build_json, build_file, Response::new, ok, created, internal_server_error or the with_* methods of a body, makes any calls on the response and on the builder, and ends with ok(), is answered to the client with the status set last, the body set last (text, JSON, file content, or the error text with 404 or 500), and for every header name the value added last. It panics only for an invalid header name given as text or a header value that cannot be sent.", "quantifier": "every sequence of response and builder calls with any arguments, every router and request that reaches the handler (through loggers, nothing, or any middlewares that only look on), every content of the files read", "why_tests_cant": "unboundedly many call sequences, texts, header lists and file contents", "anchors": ["src/router/response.rs: Response", "src/router/responder.rs: Responder", "src/router/response_body.rs: ResponseBody", "src/context.rs: Context::build, build_json, build_file, ResponseBuilder", "src/app.rs: AppServer::resolve_endpoint", "src/middleware/logger.rs: Logger"]}
{"id": "C78", "title": "The app a user builds", "statement": "The registration calls on an App reach its router in order, and the value passed to set_app_state last is what every handler finds, whichever connection the request comes on. Setting the state never affects routing, and where among the registrations it is set, and how often, does not matter. App::default() is App::new() with the Logger registered first.", "quantifier": "every sequence of calls on an App, every request, every connection", "why_tests_cant": "call sequences are unbounded and the state may be set anywhere in them", "anchors": ["src/app.rs: App::new, App::default, get, post, put, patch, delete, scope, use_service, use_service_to, use_router, use_static, use_static_to, set_app_state, listen"]}
{"id": "C79", "title": "What a request line means to the router", "statement": "A target that begins with '/' and has at most 65534 bytes arrives with the path and query that its grammar determines: the path up to the first '?' or '#', the query up to the first '#' after it, the fragment dropped, and not at all if another character stands in it; longer targets never arrive. The method is one of nine names in capitals; any other token, such as 'get', is another method.", "quantifier": "every target and every method text", "why_tests_cant": "unboundedly many request lines", "anchors": ["src/app.rs: AppServer::resolve_endpoint (req.uri().path(), req.method())", "src/context.rs: Context::uri, method, query_params"]}
{"id": "C80", "title": "Pairs sent in a query are the pairs read", "statement": "A client that sends pairs of texts, url-encoded in any way made of characters a query may have (such as the standard serializer's), in the query of a request line to a path, gets to the route of that path with exactly those pairs as the data that query_params reads; read as a map of lists, each key has its non-empty values in order.", "quantifier": "every list of pairs of Unicode texts, every encoding, every path, method, header list and body, within the length of a target", "why_tests_cant": "unboundedly many pairs and encodings", "anchors": ["src/context.rs: Context::query_params, parse_queries", "src/router/req_deserializer.rs: from_cow_map"]}
{"id": "C81", "title": "An enum with a tag and a content is read from two keys", "statement": "With an enum with serde(tag, content) as target of query_params or form, the result is the variant named by the value of the tag key, with the values of the content key read by the type of the variant; a variant without content, or with an optional one, needs no content key; an unknown tag, a missing tag or a content that is not of the type is an error, never a panic.", "quantifier": "every enum with distinct keys and variant names, every data and every iteration order of the hash maps", "why_tests_cant": "the order of the two keys in the hash map is random per process, and all data, variants and content types are quantified over", "anchors": ["src/router/req_deserializer.rs: FromMap, FormDeserializer, FormValueDeserializer", "src/context.rs: Context::parse_queries, Context::query_params, Context::form"]}
{"id": "C82", "title": "A JSON body is read by what it says", "statement": "Whatever JSON text of a document a request carries, in any rendering (blanks, escapes), json() gives a value of the target type that the document describes: numbers within the range of the type, strings, null or a value for an Option, every element of a sequence, the last member per key of a map, the fields of a struct in any order with defaults and without duplicates, unknown members ignored or, with deny_unknown_fields, refused; exactly the elements of a tuple; a variant of an enum by its name, alone or as the only key of an object. The value is the only one the document describes, the order of map entries aside. If the document describes a value and has at most 127 levels, it is accepted; otherwise the handler's error is answered.", "quantifier": "every document, every text of it, every target type made of bools, integers, floats, strings, chars, units, options, vectors, tuples, string maps, structs, externally tagged enums and Value, every app, route and request", "why_tests_cant": "unboundedly many documents, renderings and types", "anchors": ["src/context.rs: Context::json"]}
{"id": "C83", "title": "A JSON body in several chunks is never cut short", "statement": "If json() gives a value for a body that arrives in several chunks, then it is the value of the whole body.", "quantifier": "every body, every division into chunks, every target type", "why_tests_cant": "chunks are chosen by the transport; unboundedly many bodies and divisions", "anchors": ["src/context.rs: Context::json"]}
{"id": "C84", "title": "What is answered as JSON comes back as it was", "statement": "A value that one handler answers with build_json (or Response::json), posted unchanged to a handler that reads the same type with json(), is the same value again.", "quantifier": "every value of every target type of C82", "why_tests_cant": "unboundedly many values; all Unicode strings and nestings", "anchors": ["src/context.rs: Context::json, Context::build_json", "src/router/response.rs: Response::json"]}
{"id": "C85", "title": "A body that is not JSON is an error", "statement": "If the bytes of the body are not a JSON text (RFC 8259, UTF-8), json() is an error, whatever the target type.", "quantifier": "every byte sequence, every target type", "why_tests_cant": "unboundedly many byte sequences", "anchors": ["src/context.rs: Context::json"]}
{"id": "C86", "title": "Header names given as text are tokens in any case", "statement": "set_header_str, with_header_str, set_headers_str and with_headers_str panic exactly if a name is not an HTTP token of 1 to 65535 characters; otherwise the client gets each header once, under its name in lower case, with the last value the handler wrote under any spelling of the name, also over the content type that build, html and json set.", "quantifier": "every way of writing a reply, every list of names and values, every router and loggers, or other middlewares that only look on, around the handler", "why_tests_cant": "unboundedly many names, spellings and sequences of calls", "anchors": ["src/router/response.rs: Response::set_header_str, Response::set_headers_str", "src/context.rs: ResponseBuilder::with_header_str, ResponseBuilder::with_headers_str", "src/app.rs: AppServer::resolve_endpoint"]}
{"id": "C87", "title": "Request headers are read by name in any case", "statement": "ctx.headers().get(name) gives the handler the value of the first header line of the request whose name is the given one up to case, get_all the values of all such lines in order, and nothing for a text that is no header name.", "quantifier": "every list of header lines, every name, every route", "why_tests_cant": "unboundedly many lines and spellings", "anchors": ["src/context.rs: Context::headers", "src/app.rs: AppServer::resolve_endpoint"]}
{"id": "C88", "title": "From the request line to the handler", "statement": "A handler registered with app.get, post, put, patch or delete for a path is run for every HTTP request with that method whose target matches the path segment by segment, below all the middlewares registered on the way; it finds the matched values as parameters, the path and query of the target, the body, the header lines of the request under any spelling of their names, and the app state set last.", "quantifier": "every sequence of calls on an App (without a router mounted at the root), every path without '*', every target of at most 65534 bytes, all header lines and bodies", "why_tests_cant": "composes request parsing, routing, middleware chain, state and header lookup for all apps and requests", "anchors": ["src/app.rs: App::get, post, put, patch, delete, use_service, use_service_to, set_app_state, listen", "src/app.rs: AppServer::serve", "src/context.rs: Context::headers, param, get"]}
{"id": "C89", "title": "A struct sent in a query or a form comes back as it was", "statement": "If a client writes the fields of a struct as pairs (numbers in decimal, None left out, one pair per element of a vector or tuple), in any order of the fields and any encoding, query_params() and form() give the same struct.", "quantifier": "every struct of integers, bools, floats, chars, strings, options, newtypes, vectors and tuples, every value of it, every order of fields, every encoding, query or body in one chunk", "why_tests_cant": "unboundedly many types, values and encodings; tests use a few literals without empty texts", "anchors": ["src/context.rs: Context::query_params, Context::form, parse_queries", "src/router/req_deserializer.rs: FormDeserializer"]}
{"id": "C90", "title": "A guard on a path protects everything below it", "statement": "If a middleware registered with use_service_to(p, g) answers a request without calling next, then no handler is run for that request if its path is p or below p; what the client gets does not depend on any handler.", "quantifier": "every router that registration accepts (for requests: with no boundary right before a colon inside a segment), every guard, all other middlewares that leave out nothing and hand on the input they were given, every request and state", "why_tests_cant": "unboundedly many routers, guards and requests; a test of the guard asks for routes it knows to be below the guard, not for paths that only a wildcard elsewhere catches", "anchors": ["src/router.rs: Router::use_service_to", "src/router/route_trie.rs: RouteTrie::search_route, Node::get_next_node", "src/middleware.rs: Middleware", "src/app.rs: AppServer::resolve_endpoint"]}
{"id": "C91", "title": "The error of a query or form says what is wrong with it", "statement": "If query_params() or form() gives an error, its text names a fault the data really has: a field or entry whose text cannot be read, with the reason (no digit at that place, too large, too small, not true or false, unknown variant, too few elements), an unknown field that is denied, or, only if there is no such fault, the first required field that is missing. Every fault of the data is reported in some order of the hash maps; nothing else is ever reported.", "quantifier": "every query and every body in one chunk, every target (structs, flattened structs, maps, strings, numbers, untyped values, enums with a tag and a content), every order of the hash maps", "why_tests_cant": "unboundedly many data and types; with two faults the text depends on the random order of a hash map, so a test sees one of several texts, and no test can show that there are no others", "anchors": ["src/context.rs: Context::query_params, Context::form, parse_queries", "src/router/req_deserializer.rs: FormDeserializer, FormValueDeserializer, FromSeq, FromMap, Error", "src/error/obsidian_error.rs: ObsidianError"]}
{"id": "C92", "title": "Middlewares that only look on change no reply", "statement": "If every middleware on the way calls next once with the input it was given and returns what comes back, then the client gets the reply to what the handler returned, as if there were no middlewares; the handler sees the parameters, path, query, headers and body of the request.", "quantifier": "every accepted router, every route without wildcard, every request and state, any number of such middlewares with any other behaviour (printing, reading files, typed data, user actions), every handler that sets a response when it succeeds", "why_tests_cant": "unboundedly many middlewares, handlers and requests", "anchors": ["src/middleware.rs: Middleware", "src/router/handler.rs: Handler", "src/app.rs: AppServer::resolve_endpoint, EndpointExecutor::next", "src/middleware/logger.rs: Logger"]}
{"id": "C93", "title": "The panic of a rejected registration says which path and why", "statement": "If a registration is rejected, the text of its panic names the path of the rejected call and the real reason: a misplaced '*'; a route with the same method and the same path text registered before, with that method; a mount point at or below which something is registered; or a clash, with the rest of the segment of the new path and the piece of the registered paths it meets at that place, one of the two a parameter. If a call that builds a mounted router is rejected, the text is that of this call. A call that is accepted says nothing.", "quantifier": "every sequence of accepted calls (mounted routers of any depth, any paths, colons and slashes anywhere), every further call; every sequence of calls that is rejected at some point", "why_tests_cant": "what a clash names depends on how the paths registered before share beginnings (after '/user/:id' the path '/users' clashes as 's' with ':id'), so there are unboundedly many texts; a test sees the ones it was written for", "anchors": ["src/router/route_trie.rs: RouteTrie::insert_route, RouteTrie::insert_middleware, RouteTrie::insert_sub_route, RouteTrie::insert_default_route, Node::process_insertion, Node::get_insertion_action", "src/error/obsidian_error.rs: ObsidianError", "src/router.rs: Router"]}
{"id": "C94", "title": "A handler can read a form or JSON body together with the path parameters", "statement": "Context::form_with_param and Context::json_with_param give the data of the body merged with the path parameters, or an error. (Refuted: both panic for every request; no request that reaches a handler that starts with one of them is answered.)", "quantifier": "every accepted router, every request that reaches such a handler, every target type and every continuation", "why_tests_cant": "a test shows the panic for one request; that no request, type or router is served differently needs the quantifier", "anchors": ["src/context.rs: Context::form_with_param, Context::json_with_param"]}
{"id": "C95", "title": "A field with aliases is read from whichever of its names is in the data, and from one only", "statement": "For a struct target whose fields have serde(alias), query_params and form succeed exactly if every field is given under at most one of its names and its values read as its type (or it is absent and has a default or is an Option), and, with deny_unknown_fields, every key is a name of a field; the result holds these values. A field given under two names is an error that names the field's own name, even if it is a sequence: values are neither merged nor dropped. Aliases change nothing for data that use none.", "quantifier": "every struct with any number of fields and aliases, every query and body, every order of the hash maps", "why_tests_cant": "all data, all combinations of names and all hash orders", "anchors": ["src/router/req_deserializer.rs: FormDeserializer::deserialize_map, FromMap", "src/context.rs: Context::query_params, Context::form, Context::parse_queries"]}
{"id": "C96", "title": "An answer with JSON is one line", "statement": "The body that Response::json gives a response for any value is not empty and has no byte below 32: line breaks and other control characters in its texts and keys are always escaped, so the body can be put on a line of its own (a log, an event stream, a list of documents by lines).", "quantifier": "every value of the modelled types (any nesting, any texts and keys), every response", "why_tests_cant": "all values; control characters in any text at any depth", "anchors": ["src/router/response.rs: Response::json"]}
{"id": "C97", "title": "A JSON body with aliases is read like the body with the names of the fields", "statement": "For a struct target whose fields have serde(alias), Context::json reads an object exactly as the struct without aliases reads the object in which every key that is an alias is replaced by the name of its field (values, unknown members, deny_unknown_fields, missing fields and defaults, blanks and escapes in keys included). A field given twice, under the same or different names, is an error, never the first or the last of the two. Documents other than objects are read as without aliases.", "quantifier": "every struct of the modelled types with any number of fields and aliases, every JSON text, every context", "why_tests_cant": "all documents and spellings of them, all combinations of names", "anchors": ["src/context.rs: Context::json"]}
