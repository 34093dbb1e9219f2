{"id": "C01", "title": "Base64 round trip", "statement": "Decoding the text produced by base64_encode (resp. base64url_encode) gives back exactly the encoded bytes.", "quantifier": "every finite byte string, both alphabets", "why_tests_cant": "The input space is all byte strings of all lengths; the three tail shapes interact with every byte value.", "anchors": ["src/base64.cpp:33-89 encode_impl", "src/base64.cpp:135-225 decode_impl", "src/base64.cpp:229-247 base64_encode/base64_decode/base64url_encode/base64url_decode"]}
{"id": "C02", "title": "Base64 encoder output shape", "statement": "The standard encoder emits exactly 4*ceil(n/3) characters, all from the RFC 4648 alphabet followed by at most two '=' that appear only at the end; the URL encoder emits ceil(4n/3) characters, all from the URL alphabet and no '='. Bit i of the input is found at the RFC 4648 position of the output.", "quantifier": "every finite byte string, both alphabets", "why_tests_cant": "All lengths and byte values.", "anchors": ["src/base64.cpp:18-31 alphabets, lookup", "src/base64.cpp:33-89 encode_impl"]}
{"id": "C03", "title": "Base64 decoder acceptance", "statement": "base64_decode succeeds exactly on texts whose length is a multiple of 4 and that consist of alphabet characters followed by at most two '='; base64url_decode succeeds exactly on texts that, after removing their trailing '=' (at most two), consist of URL-alphabet characters and whose length is not 1 modulo 4. On success the result is the big-endian concatenation of the 6-bit values, cut to whole bytes.", "quantifier": "every byte string given as text, both alphabets", "why_tests_cant": "A decoder must reject every malformed text; there are infinitely many.", "anchors": ["src/base64.cpp:93-133 decode_value, tables, is_base64", "src/base64.cpp:135-225 decode_impl"]}
{"id": "C04", "title": "Base64 decoder stays inside its buffers", "statement": "While decoding any text, the decoder never reads outside the text and never writes outside the output buffer it sized up front, and on success every byte of that buffer has been written.", "quantifier": "every byte string given as text, both alphabets", "why_tests_cant": "Memory safety for all inputs; sanitizers only see the inputs that are run.", "anchors": ["src/base64.cpp:135-225 decode_impl"]}
{"id": "C05", "title": "Base64 decoding is not injective", "statement": "Only the canonical text of a byte string decodes to it. (Expected to fail: non-zero trailing bits are ignored and the URL decoder takes optional padding; the exact set of extra texts is to be characterised.)", "quantifier": "every text and every byte string", "why_tests_cant": "Universal statement about all texts.", "anchors": ["src/base64.cpp:163-225 decode_impl"]}
{"id": "C06", "title": "Path normalisation", "statement": "Parsing a text yields the segment list obtained by cutting the text at '/', ignoring empty and '.' pieces, letting a '..' piece remove the segment before it (and nothing at the root), and percent-decoding every other piece; '.' and '..' are recognised before decoding only.", "quantifier": "every byte string", "why_tests_cant": "All path texts, with arbitrary interleavings of dot pieces, empty pieces and escapes.", "anchors": ["src/path.cpp:8-46 path::set", "src/path.cpp:65-107 pop_segment, push_decoded_segment"]}
{"id": "C07", "title": "Path parse errors", "statement": "Parsing throws exactly when some kept piece, read left to right, has a '%' that is not followed by two hexadecimal digits, or an escape denoting '/'.", "quantifier": "every byte string", "why_tests_cant": "All path texts; boundary at the end of a piece.", "anchors": ["src/path.cpp:54-63 from_xdigit", "src/path.cpp:75-107 push_decoded_segment"]}
{"id": "C08", "title": "Path accessors agree with the segment list", "statement": "For a parsed path, size, indexing, joined(k), view, front, drop_front, drop_back and prefix(k) return what the segment list says: the k-th segment, and the '/'-join of the first k or of all but the first k segments; no accessor reads outside the stored text.", "quantifier": "every successfully parsed path, every index in range, every nesting of views", "why_tests_cant": "All paths and all chains of view operations.", "anchors": ["include/kl/path.hpp:14-137 path_segment, path_view, path"]}
{"id": "C09", "title": "Path prefix text identifies the location", "statement": "Two parsed paths give the same text for prefix(k) and prefix(l) exactly when their first k and first l segments are the same list, so using the text as a map key never confuses two locations.", "quantifier": "all pairs of parsed paths and all prefix lengths", "why_tests_cant": "Ranges over all pairs of paths, including percent-decoded ones.", "anchors": ["include/kl/path.hpp:40-110 path_view::prefix", "include/kl/resource.hpp:38-60 modification_tracker::notify_changed"]}
{"id": "C10", "title": "A failed path::set leaves a usable path", "statement": "If path::set throws, the path object is left either as before or empty. (Expected to fail: the already parsed part stays, and the text of the failing piece stays visible through joined.)", "quantifier": "every prior path and every malformed text", "why_tests_cant": "Every crash point inside the parser.", "anchors": ["src/path.cpp:8-46 path::set", "src/path.cpp:75-107 push_decoded_segment"]}
{"id": "C11", "title": "Modification tracker answers from history", "statement": "After any sequence of notifications, changed_since(path, g) is true exactly when some notification newer than g was for that path or a descendant of it, or was a subtree notification for an ancestor of it; changed_at returns the newest such generation (0 if none).", "quantifier": "every notification history, every query path and generation", "why_tests_cant": "Infinite histories; depends on all prefixes of all paths.", "anchors": ["include/kl/resource.hpp:16-123 modification_tracker"]}
{"id": "C12", "title": "Tracker generations are strictly increasing", "statement": "current() starts at 1, every notification increases it by one and returns the new value, so no two notifications share a generation and a client polling with the last seen generation misses nothing (until the 64-bit counter wraps).", "quantifier": "every notification history shorter than 2^64", "why_tests_cant": "Infinite histories.", "anchors": ["include/kl/resource.hpp:38-60 notify_changed"]}
{"id": "C13", "title": "Binary write/read round trip", "statement": "Reading back what was written gives the same value, consumes exactly the bytes written and leaves no error, for integers, strings, vectors, maps, sets, pairs, optionals, variants and every nesting of them.", "quantifier": "every value of every nested type whose collections have fewer than 2^32 elements, any bytes following", "why_tests_cant": "Unbounded nesting of types and sizes.", "anchors": ["include/kl/binary_rw.hpp:74-243 binary_reader, binary_writer", "include/kl/binary_rw/*.hpp operator<< operator>>"]}
{"id": "C14", "title": "Binary reader is bounds-safe", "statement": "Starting from any buffer, no sequence of read, peek, skip and span calls, with any input bytes, reads outside the buffer; the position always stays within [0,size].", "quantifier": "every buffer, every sequence of operations, every type read", "why_tests_cant": "All inputs times all call sequences.", "anchors": ["include/kl/binary_rw.hpp:15-66 cursor_base", "include/kl/binary_rw.hpp:74-171 binary_reader"]}
{"id": "C15", "title": "Binary stream errors are sticky", "statement": "Once the error flag is set it stays set, every later primitive read or write fails without moving the cursor or touching memory, and reads yield nothing.", "quantifier": "every sequence of operations after an error", "why_tests_cant": "All continuations of all failures.", "anchors": ["include/kl/binary_rw.hpp:15-66 cursor_base", "include/kl/binary_rw.hpp:74-243 read_raw, write_impl"]}
{"id": "C16", "title": "Truncated binary input is always detected", "statement": "Reading from a proper prefix of a valid encoding never succeeds: the error flag is set.", "quantifier": "every value of every nested type and every cut point", "why_tests_cant": "Every crash point of a writer or transport.", "anchors": ["include/kl/binary_rw/*.hpp operator>>", "include/kl/binary_rw.hpp:100-171 read_raw, read_span"]}
{"id": "C17", "title": "Failed container reads leave the container empty", "statement": "If reading a string, vector, map or set fails, the destination container is empty (of the right type) rather than half filled.", "quantifier": "every input byte string, every element type", "why_tests_cant": "All malformed inputs.", "anchors": ["include/kl/binary_rw/string.hpp", "include/kl/binary_rw/vector.hpp", "include/kl/binary_rw/map.hpp", "include/kl/binary_rw/set.hpp"]}
{"id": "C18", "title": "Binary writer never overruns and reports short buffers", "statement": "Writing a value into a buffer either writes exactly its encoding and advances by its length, or sets the error flag; in both cases memory outside the buffer and bytes behind the cursor are untouched.", "quantifier": "every buffer size, every value of every nested type", "why_tests_cant": "All buffer sizes and values.", "anchors": ["include/kl/binary_rw.hpp:173-243 binary_writer"]}
{"id": "C19", "title": "skip moves within bounds only", "statement": "skip(n) succeeds exactly when there is no error and the new position is inside the buffer; otherwise the position is unchanged and the error is set, for every n including the extreme ones. (Expected: negating the most negative offset overflows.)", "quantifier": "every cursor state and every ptrdiff_t", "why_tests_cant": "All offsets, including the boundary value.", "anchors": ["include/kl/binary_rw.hpp:33-43 cursor_base::skip"]}
{"id": "C20", "title": "Signal emission calls exactly the right slots in order", "statement": "An emission calls, in connection order and at most once each, exactly the slots that were connected when it started and that are still connected and not blocked when their turn comes, up to a stop request; slots connected meanwhile are not called.", "quantifier": "every history of connects, disconnects, blocks, nested emissions and stops performed by slots", "why_tests_cant": "Slots run arbitrary re-entrant code; the space of histories is infinite.", "anchors": ["include/kl/signal.hpp:587-650 signal::operator()", "include/kl/signal.hpp:826-859 insert_new_slot, remove_slot_locked"]}
{"id": "C21", "title": "Disconnected slots are not called again", "statement": "After disconnect returns, the slot is never called by that thread's emissions again, whether running or later.", "quantifier": "every history", "why_tests_cant": "All re-entrant histories.", "anchors": ["include/kl/signal.hpp:124-190 connection", "include/kl/signal.hpp:726-748 disconnect", "include/kl/signal.hpp:605-635 operator()"]}
{"id": "C22", "title": "Cross-thread disconnect stops calls", "statement": "After disconnect returns in one thread, no other thread starts calling the slot. (Expected to fail: an emitting thread may have checked the slot just before.)", "quantifier": "every interleaving of threads", "why_tests_cant": "Needs all schedules.", "anchors": ["include/kl/signal.hpp:605-635 operator()", "include/kl/signal.hpp:726-748 disconnect"]}
{"id": "C23", "title": "Signal slot lists are memory safe under concurrency", "statement": "In every interleaving of connects, disconnects, emissions and connection copies in any number of threads, no freed slot is touched, no slot is freed twice, and an emission always reaches its end.", "quantifier": "every number of threads, every schedule, every history", "why_tests_cant": "Needs all schedules.", "anchors": ["include/kl/signal.hpp:25-101 ref_counted, slot_state", "include/kl/signal.hpp:587-859 signal"]}
{"id": "C24", "title": "Signal counts agree with connections", "statement": "num_slots and empty report the number of connections that are still connected, at every moment outside and inside emissions.", "quantifier": "every history", "why_tests_cant": "All re-entrant histories.", "anchors": ["include/kl/signal.hpp:658-700 disconnect_all_slots, num_slots, empty"]}
{"id": "C25", "title": "Blocking is counted", "statement": "A slot is skipped exactly while at least one blocker object for its connection is alive.", "quantifier": "every history of blocker creation, copy, move and destruction", "why_tests_cant": "All histories.", "anchors": ["include/kl/signal.hpp:199-297 connection::blocker"]}
{"id": "C26", "title": "Dead slots are released after the outermost emission", "statement": "When no emission is running, no disconnected slot is still held by the signal.", "quantifier": "every history including nested and concurrent emissions", "why_tests_cant": "All schedules.", "anchors": ["include/kl/signal.hpp:761-786 cleanup", "include/kl/signal.hpp:636-650 operator() epilogue"]}
{"id": "C27", "title": "A throwing slot does not corrupt the signal", "statement": "When a slot throws, the emission ends, emission bookkeeping is restored, all other slots keep working, and every resource held by the emission is released. (Expected: the reference on the current slot is leaked.)", "quantifier": "every history and throw point", "why_tests_cant": "Every crash point.", "anchors": ["include/kl/signal.hpp:587-650 signal::operator()"]}
{"id": "C28", "title": "Swapping and moving signals carries connections along", "statement": "After move or swap, every connection refers to the signal that now holds its slot: disconnecting it removes that slot, and it is called by emissions of that signal only.", "quantifier": "every history of connects, moves and swaps", "why_tests_cant": "All histories.", "anchors": ["include/kl/signal.hpp:421-433 signal(signal&&)", "include/kl/signal.hpp:700-714 swap", "include/kl/signal.hpp:750-759 rebind"]}
{"id": "C29", "title": "Disconnect racing with swap", "statement": "A disconnect that runs concurrently with swap/move of the signal still disconnects the slot. (Expected to fail.)", "quantifier": "every interleaving", "why_tests_cant": "Needs all schedules.", "anchors": ["include/kl/signal.hpp:726-759 disconnect, rebind_slots"]}
{"id": "C30", "title": "Serialize/deserialize round trip", "statement": "Deserializing the document produced by serialize gives back the same value, for structs, optionals, ranges, maps, tuples, pairs, enums and enum sets nested arbitrarily, under stated conditions on attributes.", "quantifier": "every type description meeting the conditions, every value", "why_tests_cant": "Unbounded nesting of types.", "anchors": ["include/kl/detail/serialization.hpp:569-813 serialize_adl", "include/kl/detail/serialization.hpp:815-1118 deserialize_adl"]}
{"id": "C31", "title": "Streaming dump equals tree serialization", "statement": "The text written by dump is the text of the document built by serialize, for the same value and context.", "quantifier": "every type description and value", "why_tests_cant": "Two independent code paths; all types.", "anchors": ["include/kl/detail/serialization.hpp:529-715 dump_adl", "include/kl/detail/serialization.hpp:569-813 serialize_adl", "include/kl/json.hpp:180-470"]}
{"id": "C32", "title": "Integer deserialization is exact", "statement": "Deserializing a number into an integer type yields the same number or fails; it never wraps or truncates.", "quantifier": "every JSON integer in the 64-bit ranges, every integer width and signedness", "why_tests_cant": "2^65 inputs times widths.", "anchors": ["include/kl/json.hpp:520-526 narrow", "include/kl/json.hpp:679-723 integer deserialization"]}
{"id": "C33", "title": "Missing and null fields follow the declared policy", "statement": "On deserialization a missing field takes its declared default, else keeps its value if allow_missing, else is treated as null; a null field takes the default when declared, else goes to the field type (empty optional, or error).", "quantifier": "every struct description, every document", "why_tests_cant": "All combinations of attributes and documents.", "anchors": ["include/kl/detail/serialization.hpp:144-204 default and policies", "include/kl/detail/serialization.hpp:815-1118 deserialize_adl"]}
{"id": "C34", "title": "Aliases are looked up in declared order", "statement": "A field is read from its canonical name if present, else from the first alias present, and otherwise counts as missing.", "quantifier": "every struct description, every document", "why_tests_cant": "All documents.", "anchors": ["include/kl/detail/serialization.hpp:206-225 resolve_field_name"]}
{"id": "C35", "title": "Validators guard every value that is read", "statement": "After a successful deserialization, every validated field that was read from the document satisfies all its validators. (Defaults are not validated.)", "quantifier": "every struct description, every document", "why_tests_cant": "All documents.", "anchors": ["include/kl/detail/serialization.hpp:170-187 validate_field", "include/kl/detail/serialization.hpp:815-1118"]}
{"id": "C36", "title": "Patch touches only what the document names", "statement": "Patching a struct with an object document changes exactly the fields named in it; patching with an empty object changes nothing; patching with the value's own serialization changes nothing; patching twice is the same as patching once.", "quantifier": "every struct description, value and document", "why_tests_cant": "All combinations.", "anchors": ["include/kl/detail/serialization.hpp:1120-1242 patch_adl"]}
{"id": "C37", "title": "Extra fields survive and never collide", "statement": "Unknown members are collected into the extra_fields map and written back on serialization; serialization refuses extra keys that collide with declared names, so no document has duplicate keys.", "quantifier": "every struct description with extra_fields/flatten, every value and document", "why_tests_cant": "All documents and attribute nestings.", "anchors": ["include/kl/detail/serialization.hpp:415-527 reserved names, check_extra_field_key", "include/kl/detail/serialization.hpp:569-612"]}
{"id": "C38", "title": "Flattened struct with its own extra fields round trips", "statement": "Serializing and deserializing a struct that flattens a struct with extra_fields preserves it. (Expected to fail.)", "quantifier": "every value", "why_tests_cant": "Interaction of two features.", "anchors": ["include/kl/detail/serialization.hpp:415-488", "include/kl/detail/serialization.hpp:900-1010"]}
{"id": "C39", "title": "Failed resource operations have no effect", "statement": "Whenever get, put, post, patch or del returns a status other than success (or an exception escapes), the resource value and its modification history are exactly as before.", "quantifier": "every schema, value, path, document, validator behaviour", "why_tests_cant": "Every failure point in every operation.", "anchors": ["include/kl/resource_op.hpp:397-457 rollbacks", "include/kl/resource_op.hpp:868-1089 put, post, patch, del"]}
{"id": "C40", "title": "Resource invariants are preserved", "statement": "If validators pass and child keys are unique initially, they hold after every sequence of operations, whatever their outcomes.", "quantifier": "every history of operations", "why_tests_cant": "Infinite histories.", "anchors": ["include/kl/resource_op.hpp:84-140 validate_candidate", "include/kl/resource_op.hpp:331-386 validate_unique_child_keys, validate_node_tree"]}
{"id": "C41", "title": "Resource operations touch only their target", "statement": "A successful put, patch, post or delete at a path leaves every location that is neither an ancestor, the target itself, nor below it unchanged.", "quantifier": "every schema, value, path, document and other location", "why_tests_cant": "All pairs of paths.", "anchors": ["include/kl/resource_op.hpp:505-660 visit_node, visit_at_path", "include/kl/resource_op.hpp:868-1089"]}
{"id": "C42", "title": "Successful operations are visible to pollers", "statement": "After a successful modifying operation, every path whose GET answer differs from before reports changed_since the previous generation. (Expected to fail for aliases such as array index '00' and deletion of optional collections.)", "quantifier": "every history, every observed path", "why_tests_cant": "All pairs of paths and histories.", "anchors": ["include/kl/resource_op.hpp:868-1089 notify_changed calls", "include/kl/resource.hpp:38-60", "include/kl/resource_op.hpp:471-485 parse_index"]}
{"id": "C43", "title": "Read-only locations reject direct writes", "statement": "put, patch, post or delete aimed at a read_only field, or at anything below a subtree_read_only field, never succeeds.", "quantifier": "every schema, value, path and document", "why_tests_cant": "All paths and attribute nestings.", "anchors": ["include/kl/resource_op.hpp:27-61 access_context", "include/kl/resource_op.hpp:868-1089", "include/kl/resource_attributes.hpp"]}
{"id": "C44", "title": "Child keys are immutable", "statement": "No single operation below or at an element of a keyed collection changes that element's key.", "quantifier": "every history", "why_tests_cant": "All paths.", "anchors": ["include/kl/resource_op.hpp:148-277 nodes", "include/kl/resource_op.hpp:868-1021"]}
{"id": "C45", "title": "Put then get", "statement": "After a successful put of a document at a path, get at that path succeeds and returns the serialization of the deserialized document; repeating the put gives the same value.", "quantifier": "every schema, value, path, document", "why_tests_cant": "All combinations.", "anchors": ["include/kl/resource_op.hpp:850-917 get, put"]}
{"id": "C46", "title": "Post appends and delete removes one child", "statement": "A successful post adds exactly one element at the end of the collection and names it; a successful delete of a child removes exactly that child, and the others keep their order.", "quantifier": "every schema, value, path, document", "why_tests_cant": "All combinations.", "anchors": ["include/kl/resource_op.hpp:716-844 delete_direct_child", "include/kl/resource_op.hpp:919-972 post", "include/kl/resource_op.hpp:1023-1089 del"]}
{"id": "C47", "title": "Index segments parse exactly the decimal numbers", "statement": "A path segment addresses index n exactly when it consists of decimal digits only, denotes n, and n fits std::size_t. (Leading zeros are accepted, so an element has several addresses.)", "quantifier": "every byte string", "why_tests_cant": "All strings including overflow boundary.", "anchors": ["include/kl/resource_op.hpp:471-485 parse_index"]}
{"id": "C48", "title": "Enum names round trip", "statement": "to_string and from_string are inverse on declared enumerators with distinct names and values, the fast index path gives the same answer as the search, and undeclared values give the fallback text.", "quantifier": "every enumerator table and value of the underlying type", "why_tests_cant": "All tables.", "anchors": ["include/kl/enum_reflector.hpp:20-168"]}
{"id": "C49", "title": "enum_set is a faithful set", "statement": "enum_set operations compute the set operations on the contained flags, and has_any/has_all/test/empty answer membership questions about them.", "quantifier": "every width and bit pattern", "why_tests_cant": "2^64 patterns.", "anchors": ["include/kl/enum_set.hpp:20-197"]}
{"id": "C50", "title": "enum_range visits every enumerator once in order", "statement": "Iterating an enum_range yields min, min+1, ..., max-1, and in_range and count agree with that list.", "quantifier": "every declared range and underlying type", "why_tests_cant": "All ranges; boundary of the underlying type.", "anchors": ["include/kl/enum_range.hpp:13-58", "include/kl/enum_traits.hpp:53-103"]}
{"id": "C51", "title": "enum_range iterators are ordered like positions", "statement": "For iterators of the same range, end-begin is the number of elements and a<b exactly when b is reachable from a by increments. (Expected to fail: the sign is inverted.)", "quantifier": "every range and pair of positions", "why_tests_cant": "All pairs.", "anchors": ["include/kl/enum_range.hpp:35-38 distance_to", "include/kl/iterator_facade.hpp:119-165"]}
{"id": "C52", "title": "Closed enum ranges ending at the type's maximum", "statement": "A closed range whose last enumerator is the largest value of the underlying type is rejected or works. (Expected to fail for types narrower than int.)", "quantifier": "every underlying type and range", "why_tests_cant": "Boundary of each type.", "anchors": ["include/kl/enum_traits.hpp:53-103"]}
{"id": "C53", "title": "fnv1a is FNV-1a", "statement": "The string hash equals 32-bit FNV-1a of the bytes. (Expected to fail for bytes above 127 where char is signed.)", "quantifier": "every byte string", "why_tests_cant": "All strings.", "anchors": ["include/kl/hash.hpp:12-45"]}
{"id": "C54", "title": "hsieh is SuperFastHash", "statement": "The hash equals Hsieh's SuperFastHash for all inputs. (Expected to need a condition on non-ASCII bytes.)", "quantifier": "every byte string", "why_tests_cant": "All strings and tail shapes.", "anchors": ["include/kl/hash.hpp:47-119"]}
{"id": "C55", "title": "split cuts at every delimiter", "statement": "split returns the maximal delimiter-free pieces in order; joining the pieces with the delimiters found restores the text, except that a trailing delimiter does not produce a final empty piece.", "quantifier": "every text, delimiter set and skip_empty flag", "why_tests_cant": "All texts.", "anchors": ["include/kl/split.hpp:12-41"]}
{"id": "C56", "title": "stream_join output", "statement": "Streaming a join writes the elements in order separated by the delimiter and no leading or trailing delimiter, or the empty-string text for an empty sequence; an output joiner writes the same text incrementally.", "quantifier": "every sequence, delimiter and element formatting", "why_tests_cant": "All sequences.", "anchors": ["include/kl/stream_join.hpp:14-115"]}
{"id": "C57", "title": "zipped stops at the shortest sequence", "statement": "Iterating zipped sequences yields as many tuples as the shortest sequence has elements, the i-th made of the i-th elements; enumerated pairs each element with its index; no sequence is read past its end.", "quantifier": "every tuple of sequences of any lengths", "why_tests_cant": "All length combinations.", "anchors": ["include/kl/zip.hpp:60-231", "include/kl/tuple.hpp:20-86"]}
{"id": "C58", "title": "exception_info behaves like a stack per tag", "statement": "get returns the most recently set and not yet unset value for a tag; unset removes only that one; other tags are unaffected.", "quantifier": "every history of set/unset on one object, any tags", "why_tests_cant": "All histories.", "anchors": ["include/kl/exception_info.hpp:113-199"]}
{"id": "C59", "title": "Copies of exception_info are independent", "statement": "Operations on a copy never change what the original reports. (Expected to fail: nodes are shared.)", "quantifier": "every history over several copies", "why_tests_cant": "All histories over aliasing objects.", "anchors": ["include/kl/exception_info.hpp:85-199"]}
{"id": "C60", "title": "file_view reports every failure", "statement": "Opening a file view either throws or gives a view of the whole file's bytes, for every outcome of the system calls. (Expected to fail: mapping failure is tested against null.)", "quantifier": "every combination of system call results", "why_tests_cant": "Fault injection over all call outcomes.", "anchors": ["src/file_view_unix.cpp:15-95"]}
{"id": "C61", "title": "defer runs its action exactly once", "statement": "The action given to defer runs exactly once when the scope ends, on normal exit and on exception, in reverse order of declaration.", "quantifier": "every scope structure and exit point", "why_tests_cant": "Every exit point.", "anchors": ["include/kl/defer.hpp"]}
{"id": "C62", "title": "Memory requested by the binary reader is bounded by the input", "statement": "Reading from a buffer never asks a container to hold more elements than the buffer has bytes left. (Expected to fail: the size prefix is trusted before the remaining bytes are checked.)", "quantifier": "every input byte string, every type read", "why_tests_cant": "Tests use well-formed input; a hostile size prefix costs memory rather than failing an assertion.", "anchors": ["include/kl/binary_rw/string.hpp:19-33", "include/kl/binary_rw/vector.hpp:31-78"]}
{"id": "C63", "title": "Iterator facade operators agree with distance", "statement": "If distance_to reports the difference of positions, then the operators generated by iterator_facade (==, !=, <, <=, >, >=, -) agree with the order of the positions.", "quantifier": "every pair of iterators and every position map", "why_tests_cant": "Tests compare a few pairs; the agreement is needed for all pairs and for mutual consistency of the operators.", "anchors": ["include/kl/iterator_facade.hpp:119-165"]}
{"id": "C64", "title": "A reversed enumerator range is rejected at compile time", "statement": "enum_trait_support_range with min greater than max, or an empty range, fails the count() > 0 static assertion. (Expected to fail: the subtraction wraps to a large positive count.)", "quantifier": "every min and max of every underlying type", "why_tests_cant": "A static_assert that does not fire leaves nothing to test.", "anchors": ["include/kl/enum_traits.hpp:79-84"]}
{"id": "C65", "title": "split treats a literal like the same string", "statement": "Splitting a string literal gives the same pieces as splitting the std::string with the same characters. (Expected to fail: the terminator belongs to the array.)", "quantifier": "every text and delimiter set", "why_tests_cant": "The test suite pins one difference; it cannot show which inputs agree.", "anchors": ["include/kl/split.hpp:26-41", "tests/split_test.cpp"]}
{"id": "C66", "title": "An output joiner can be handed to several algorithms", "statement": "Passing the same outstream_joiner object to several algorithms one after the other joins all their output. (Expected to fail: algorithms take it by value.)", "quantifier": "every sequence of ranges", "why_tests_cant": "Needs reasoning about copies of the iterator, tests use each joiner once.", "anchors": ["include/kl/stream_join.hpp:59-107"]}
{"id": "C67", "title": "exception_info is memory safe", "statement": "No history of construct, copy, assign, set, unset and get follows a dangling pointer or loops forever, however nodes are shared.", "quantifier": "every history over any number of objects", "why_tests_cant": "Sharing patterns are unbounded.", "anchors": ["include/kl/exception_info.hpp:113-223"]}
{"id": "C68", "title": "file_view releases what it acquires", "statement": "On every path through the constructor the descriptor is closed exactly once; a mapping is unmapped exactly once by the destructor with its own address and size.", "quantifier": "every combination of system call results", "why_tests_cant": "System call failures are hard to provoke.", "anchors": ["src/file_view_unix.cpp:15-92"]}
{"id": "C69", "title": "Copies of a file_view are safe", "statement": "Copying a file_view gives an independent object: the mapping is released once. (Expected to fail: the implicit copy shares it.)", "quantifier": "every view", "why_tests_cant": "Double unmapping usually goes unnoticed.", "anchors": ["include/kl/file_view.hpp:9-20", "src/file_view_unix.cpp:85-92"]}
{"id": "C70", "title": "The Windows file_view reports every failure", "statement": "When a system call fails the constructor throws. (Expected to fail: the result of GetFileSizeEx is ignored.)", "quantifier": "every combination of system call results", "why_tests_cant": "Not run on Linux; failures are hard to provoke.", "anchors": ["src/file_view_win32.cpp:71-106"]}
{"id": "C71", "title": "Each signal operation changes exactly the slots it names", "statement": "connect puts the new slot last (or first with connect_position at_front); a library step removes at most the slot that disconnect was called for; every operation other than connect, disconnect_all, swap, move and destruction leaves the ordered slots of every signal unchanged.", "quantifier": "every reachable state, every step of every thread", "why_tests_cant": "The list is edited from many places (direct removal, deferred cleanup, rebinding); a test sees only a few orders of these.", "anchors": ["include/kl/signal.hpp: base_signal::connect, insert_new_slot, disconnect, cleanup_invalidated_slots"]}
{"id": "C72", "title": "Signals leak nothing when no slot throws", "statement": "If no slot threw and all signals, connections and blockers are gone and no thread is inside the library, every slot has been freed.", "quantifier": "every history without exceptions", "why_tests_cant": "Leaks depend on which of many reference holders was last and on the interleaving of threads.", "anchors": ["include/kl/signal.hpp: slot_state reference counting, emit_signal"]}
{"id": "C73", "title": "Destroying a signal or disconnecting all slots disconnects exactly its slots", "statement": "After disconnect_all_slots or destruction of a signal, every connection to it is disconnected, the signal has no slots, and connections to other signals are unaffected.", "quantifier": "every reachable state, inside and outside emissions", "why_tests_cant": "Connections outlive signals; which slots are still listed depends on the whole history.", "anchors": ["include/kl/signal.hpp: ~signal, disconnect_all_slots"]}
{"id": "C74", "title": "Disconnect racing with destruction of the signal", "statement": "A disconnect that runs concurrently with the destruction of the signal touches only live objects. (Fails: disconnect reads the sender, then uses it after it may have been destroyed.)", "quantifier": "every interleaving", "why_tests_cant": "The window is two instructions wide.", "anchors": ["include/kl/signal.hpp: connection::disconnect, ~signal"]}
{"id": "C75", "title": "Reading never leaves the type", "statement": "Deserializing or patching an object of a described type leaves it a value of that type, also when an exception leaves the call; writing is defined on every value.", "quantifier": "every type description, value and document", "why_tests_cant": "Failure half way through nested containers can leave any intermediate state; tests sample a few.", "anchors": ["include/kl/detail/serialization.hpp:815-1242 deserialize_adl, patch_adl", "include/kl/detail/serialization.hpp:717-813 serialize_adl"]}
{"id": "C76", "title": "Deserialization overwrites", "statement": "When no field is skipped on reading and every allow_missing field has a default, a successful deserialization gives the same value whatever the object held before.", "quantifier": "every such type description, document and pair of prior values", "why_tests_cant": "The prior contents of every nested object are universally quantified.", "anchors": ["include/kl/detail/serialization.hpp:815-1118 deserialize_adl"]}
{"id": "C77", "title": "Serialization fails exactly on name clashes", "statement": "serialize throws if and only if a struct with flatten or extra_fields declares a name twice or two extra_fields members, or an extra key equals a declared name; reading with such a struct throws logic_error and changes nothing.", "quantifier": "every type description and value", "why_tests_cant": "The characterisation covers every nesting of structs and containers.", "anchors": ["include/kl/detail/serialization.hpp:415-527 reserved_field_names, check_extra_field_key"]}
{"id": "C78", "title": "Resource requests are always defined", "statement": "No request with a well-formed path reaches an undefined or impossible state, whatever the schema, value, document and validators; what escapes is an exception of the validators or of serialization.", "quantifier": "every schema, value, path, document and validators", "why_tests_cant": "Every combination of node kind, path segment and document shape is covered, including unresolvable ones.", "anchors": ["include/kl/resource_op.hpp:505-650 visit_node, visit_at_path", "include/kl/resource_op.hpp:850-1089 get, put, post, patch, del"]}
{"id": "C79", "title": "Not found means not found", "statement": "GET answers ok with the serialization of the value the path refers to, and not_found exactly when it refers to nothing; put, patch and post answer not_found when the path refers to nothing.", "quantifier": "every schema, value, path and document", "why_tests_cant": "Resolution is specified independently as a relation over all paths and values.", "anchors": ["include/kl/resource_op.hpp:505-650 visit_node", "include/kl/resource_op.hpp:850-1021 get, put, post, patch"]}
{"id": "C80", "title": "The reader accepts exactly the wire format", "statement": "A read that succeeds consumed, from the cursor on, a byte string that represents the value returned, and any representation found at the cursor is read successfully as its value. Representations are defined without the reader: any non-zero byte marks a present optional; map and set elements may come in any order and repeat, and the first occurrence of a key wins. No byte string starts with two different representations.", "quantifier": "every type, buffer, cursor position and value", "why_tests_cant": "All byte strings of all lengths and all type shapes, including non-canonical ones no writer produces.", "anchors": ["include/kl/binary_rw.hpp:110-178", "include/kl/binary_rw/string.hpp:19-34", "include/kl/binary_rw/vector.hpp:31-90", "include/kl/binary_rw/map.hpp:21-36", "include/kl/binary_rw/set.hpp:19-35", "include/kl/binary_rw/pair.hpp:17-26", "include/kl/binary_rw/optional.hpp:17-25", "include/kl/binary_rw/variant.hpp:11-50"]}
{"id": "C81", "title": "span and peek deliver the next bytes", "statement": "span returns exactly the requested number of bytes at the cursor and moves the cursor exactly when asked to; when fewer are left it returns nothing, sets the error and does not move. peek returns what read would, never moves and never sets the error. left is the number of unread bytes and empty says whether it is zero.", "quantifier": "every buffer, position, count, flag and fixed-size type", "why_tests_cant": "All positions and counts, including counts beyond the buffer.", "anchors": ["include/kl/binary_rw.hpp:79-88 peek", "include/kl/binary_rw.hpp:138-160 span, peek_impl", "include/kl/binary_rw.hpp:45-50 empty, left"]}
{"id": "C82", "title": "What a failed read leaves behind", "statement": "After a failed read strings and containers are empty, fixed-size values and variants are unchanged, a pair whose first half failed keeps its second half, and an optional holds the default value its element's failed read left.", "quantifier": "every type, old value, buffer and cursor", "why_tests_cant": "All truncation points of all inputs for all nested types.", "anchors": ["include/kl/binary_rw/pair.hpp:17-26", "include/kl/binary_rw/optional.hpp:17-25", "include/kl/binary_rw/variant.hpp:11-50", "include/kl/binary_rw.hpp:110-126"]}
{"id": "C83", "title": "Windows file views show the whole file and leak nothing", "statement": "When the size query succeeds, constructing a file view on Windows either throws because a call failed or gives the bytes of the whole file. The file handle and the mapping handle are closed exactly once on every path, never used after that, and the mapped view is unmapped exactly once by the destructor.", "quantifier": "every combination of results of the system calls", "why_tests_cant": "Fault injection over all call outcomes; the CI cannot make CreateFileMapping or MapViewOfFile fail.", "anchors": ["src/file_view_win32.cpp:12-54 handle", "src/file_view_win32.cpp:71-112"]}
{"id": "C84", "title": "The document of a value is exact", "statement": "Serializing a value yields exactly the document described by its type and attributes: every field under its renamed or declared name, in order, unless never written, null and unwanted, or empty and unwanted; flattened structs and extra fields spliced in; enumerators by the name of the first enumerator with the value. It throws exactly when no such document exists because names clash.", "quantifier": "all supported types and attributes, all values of the type, both settings of skip_null_fields", "why_tests_cant": "Types and attribute combinations are unbounded and nested.", "anchors": ["include/kl/detail/serialization.hpp:569-813", "include/kl/json.hpp:611-667"]}
{"id": "C85", "title": "Deserialization is exact", "statement": "Deserializing a document into an object succeeds for exactly the documents described by the type and attributes, with exactly the described value, and when it fails leaves exactly the described partial value with the described exception: elements before the failing one are new, those after it are unchanged, optionals and simple values are unchanged, maps and vectors hold what was read before the failure.", "quantifier": "all supported types and attributes, all documents, all objects read into", "why_tests_cant": "Both the documents and the types are unbounded.", "anchors": ["include/kl/detail/serialization.hpp:815-1118", "include/kl/json.hpp:669-762"]}
{"id": "C86", "title": "Patching is exact", "statement": "Patching an object with a document does exactly what the type and attributes describe, on success and on failure: named fields are patched recursively, unnamed ones are unchanged, existing extra fields are patched in place and new ones added in document order, other types are deserialized.", "quantifier": "all supported types and attributes, all documents, all objects", "why_tests_cant": "Both the documents and the types are unbounded.", "anchors": ["include/kl/detail/serialization.hpp:1120-1242"]}
{"id": "C87", "title": "Only deserialize_error reports a bad document", "statement": "Whatever the document, deserialize and patch throw deserialize_error or nothing, unless some struct in the type has clashing names next to flattened or extra fields (logic_error) or a validator throws something of its own.", "quantifier": "all supported types, documents and objects", "why_tests_cant": "The exception must be right for every malformed document.", "anchors": ["include/kl/detail/serialization.hpp:815-1242", "include/kl/detail/serialization.hpp:170-187"]}
{"id": "C88", "title": "Every request has exactly the specified outcome", "statement": "For every request on a well-formed path the answer, the object afterwards and the announcements are exactly those of the specification: 404 when nothing is at the path, 405 for protected places, other types and changed keys, 400 for unreadable documents, 409 for refusing validators and duplicate keys, and otherwise the object with just the target replaced, appended or removed.  The same holds for every sequence of requests.", "quantifier": "all supported types, objects, validators, documents, paths and histories of requests", "why_tests_cant": "The decision depends on the type, the attributes along the path, the document and the whole object.", "anchors": ["include/kl/resource_op.hpp:505-1089 visit_at_path, delete_direct_child, get, put, post, patch, del", "include/kl/resource_op.hpp:84-386 validation"]}
{"id": "C89", "title": "Change reports are exact", "statement": "After any history of requests, changed_since reports a path changed since an earlier point exactly when one of the requests since then announced a change at, below, or with everything below it above that path; in particular a path unrelated to the paths of all modifying requests is not reported.", "quantifier": "all supported types, objects and histories shorter than the generation counter, all paths", "why_tests_cant": "A spurious or missing report depends on the whole history.", "anchors": ["include/kl/resource_op.hpp:868-1089 notify_changed calls", "include/kl/resource.hpp:16-120 modification_tracker"]}
{"id": "C90", "title": "enum_range iterators move by positions", "statement": "it + n from the begin of an enum_range is the n-th element (or the end), n increments get there too, n decrements and it - n get back, moving from one position to another by their difference works, and iterators are equal exactly when the positions are.", "quantifier": "every range, every pair of positions", "why_tests_cant": "All ranges and distances, at the limits of each type.", "anchors": ["include/kl/enum_range.hpp:33-47", "include/kl/iterator_facade.hpp:64-125"]}
{"id": "C91", "title": "in_range of an integer", "statement": "enum_traits::in_range(integer) is true exactly for the values of the range. (Expected to fail: operands of different signedness are compared as unsigned numbers.)", "quantifier": "every range, every integer type and value", "why_tests_cant": "All values of all types.", "anchors": ["include/kl/enum_traits.hpp:92-96"]}
{"id": "C92", "title": "Enum operators act on the underlying values", "statement": "|, &, ^, ~, <<, >>, ++ of enums_operators and check_mask are the operations on the flags of the underlying value, within the type; shifts by less than the width are defined under the conditions of the standard.", "quantifier": "every underlying type and all values", "why_tests_cant": "All values of all types.", "anchors": ["include/kl/enum_traits.hpp:99-190 enums::operators", "include/kl/enum_traits.hpp:278-283 check_mask"]}
{"id": "C93", "title": "YAML integers are read exactly or refused", "statement": "A YAML scalar is read into an integer exactly when its text is a C++ numeral (optional sign, 0x hexadecimal, leading-0 octal or decimal, white space after it; no minus for an unsigned type) of a value the type has, and that value is read; every other text and every node that is not a scalar gives deserialize_error and leaves the object unchanged. No text means two numbers.", "quantifier": "every integer type, every text and node", "why_tests_cant": "All texts and the limits of all types.", "anchors": ["include/kl/yaml.hpp:526-542 deserialize_adl arithmetic", "src/yaml.cpp:24-31 expect_scalar"]}
{"id": "C94", "title": "YAML booleans", "statement": "A bool is written as true or false; a scalar is read as a bool exactly when it is one of y, yes, true, on, n, no, false, off in lower case, capitalized or upper case, with that meaning; everything else is refused and leaves the object unchanged.", "quantifier": "every text and node", "why_tests_cant": "All texts.", "anchors": ["include/kl/yaml.hpp:476-481 serialize_adl", "include/kl/yaml.hpp:526-542 deserialize_adl arithmetic"]}
{"id": "C95", "title": "YAML integers are written in one way", "statement": "An integer is written as its decimal numeral without leading zeros, with a minus if negative; two integers are written alike exactly when they are equal.", "quantifier": "every integer type and value", "why_tests_cant": "All values.", "anchors": ["include/kl/yaml.hpp:476-491 serialize_adl"]}
{"id": "C96", "title": "JSON and YAML write the same document", "statement": "For every value without a float in it, YAML serialization gives the document JSON gives with booleans as true/false, integers as decimal text and doubles as text, and throws exactly when JSON does.", "quantifier": "all supported types without float, all attributes and values", "why_tests_cant": "All types and values; the backends share the generic code only by convention.", "anchors": ["include/kl/detail/serialization.hpp:569-813", "include/kl/json.hpp:611-667", "include/kl/yaml.hpp:470-515"]}
{"id": "C97", "title": "YAML reads what JSON reads", "statement": "When reading or patching from a JSON document succeeds, doing the same from the YAML form of the document succeeds with the same object.", "quantifier": "all supported types without floating point, all documents and objects", "why_tests_cant": "All types, documents and objects.", "anchors": ["include/kl/detail/serialization.hpp:815-1242", "include/kl/json.hpp:669-762", "include/kl/yaml.hpp:517-573"]}
{"id": "C98", "title": "YAML numbers are what they look like", "statement": "A text of decimal digits is read as that decimal number, and what YAML reads from a document JSON reads too. (Expected to fail: 010 is 8, and a string in a JSON document becomes a number in YAML.)", "quantifier": "every document", "why_tests_cant": "All texts and documents.", "anchors": ["include/kl/yaml.hpp:526-542 deserialize_adl arithmetic"]}
{"id": "C99", "title": "Error reports lead to the cause", "statement": "When reading or patching fails with a deserialize_error, its first message is true of some part of the document and its type, and the following messages are exactly the fields, extra fields, elements and types from that part out to the whole; the object left behind is that of the plain functions.", "quantifier": "all supported types with attributes, all documents and objects, both backends", "why_tests_cant": "Every combination of nested types, attributes and kinds of misfit is a different path through the catch blocks.", "anchors": ["include/kl/detail/serialization.hpp:815-1242", "src/serialization_error.cpp:7-11 add", "src/json.cpp:20-71", "src/yaml.cpp:19-49"]}
{"id": "C100", "title": "The text of an error report is unambiguous", "statement": "what() is the sentences of the report, one per line; two reports with the same text have the same first line and the same path, if no name contains a new line or a zero.", "quantifier": "all reports", "why_tests_cant": "All pairs of reports.", "anchors": ["include/kl/serialization_error.hpp:9-29 deserialize_error", "src/serialization_error.cpp:7-11 add", "include/kl/detail/serialization.hpp:830-842, 860-870, 885-897, 941-948, 978-985, 1018-1024, 1033-1038"]}
{"id": "C101", "title": "Error reports name keys and positions of the document", "statement": "A report names the key in the document for a field and the position of an element of a tuple, and its text tells different reports apart whatever the keys are. (Expected to fail: tuples add no position, renamed fields appear under the name of the member, a key with a new line reads like another level, and a zero in a key ends the line.)", "quantifier": "all documents", "why_tests_cant": "All documents and keys.", "anchors": ["include/kl/detail/serialization.hpp:1081-1106 deserialize_tuple", "include/kl/detail/serialization.hpp:978-985", "src/serialization_error.cpp:7-11 add"]}
{"id": "C102", "title": "Attribute queries find exactly the attributes that inherit from the class asked for", "statement": "For a field with any list of attributes, has<T> is true exactly if the class of an attribute is T or has T as its only, publicly reachable base of that class; get<T> returns the first such attribute, visit_attributes<T> all of them in order, visit_attributes all attributes. (That an attribute inheriting publicly from T is always found is expected to fail: an ambiguous base is not convertible.)", "quantifier": "all class hierarchies with virtual, private and repeated bases, all lists of attributes", "why_tests_cant": "Class hierarchies are compile-time data; a test instantiates a few of them.", "anchors": ["include/kl/ctti.hpp:17-20 attribute_matches_v", "include/kl/ctti.hpp:26-102 field_data"]}
{"id": "C103", "title": "Filtered reflection answers like unfiltered reflection", "statement": "reflect_type with any_attribute<Ts...> shows the same fields, names and types as reflect_object, and every query for one of Ts has the answer it has without the filter. has_any_attribute<Ts...> is true exactly if some field, of the type or a base, has an attribute that answers one of Ts, and is a constant expression exactly if those attributes are constants, whatever the other attributes are.", "quantifier": "all records with bases, all attribute lists, all filters", "why_tests_cant": "Filters and attribute lists are types.", "anchors": ["include/kl/ctti.hpp:215-275 type_field_factory", "include/kl/ctti.hpp:336-401 any_attribute_filter, has_any_attribute", "include/kl/reflect_struct.hpp:137-206"]}
{"id": "C104", "title": "Reflection visits the declared fields, bases first", "statement": "reflect_type and reflect_object visit each declared field once per way to the class declaring it, in the order: fields of the bases in order of declaration, then own fields; num_fields is their number; value() is the member of the only subobject of the declaring class.", "quantifier": "all hierarchies of reflected records", "why_tests_cant": "All hierarchies.", "anchors": ["include/kl/ctti.hpp:325-381 reflect_object, reflect_type, num_fields", "include/kl/reflect_struct.hpp:137-206"]}
{"id": "C105", "title": "No member is visited twice", "statement": "Reflection of an object visits no data member of the object twice. (Expected to hold without virtual bases only: a member of a virtual base is visited once per path; a member of a base that is there twice is counted although its value cannot be formed.)", "quantifier": "all hierarchies of reflected records", "why_tests_cant": "All hierarchies.", "anchors": ["include/kl/ctti.hpp:325-334 reflect_object", "include/kl/reflect_struct.hpp:137-206"]}
{"id": "C106", "title": "Behaviour of a field depends on its attribute list as documented", "statement": "Names, skipping, defaults, validators, aliases, reserved names and child keys of a field depend on its attributes only through: the first rename, the first aliases and the first default_value attribute, all validators and child keys in declaration order, and the presence of the flags, with derived classes counting. (That a second aliases attribute adds names, and that a class derived from default_value_t gives a default, is expected to fail.)", "quantifier": "all lists of attributes, all documents and values", "why_tests_cant": "All lists of attribute classes and objects.", "anchors": ["include/kl/detail/serialization.hpp:62-225", "include/kl/detail/serialization.hpp:415-457", "include/kl/serialization_attributes.hpp:10-84", "include/kl/resource_op.hpp:462-470"]}
{"id": "C107", "title": "Compile-time checks of field names are exact", "statement": "The checks of duplicate names at compile time never overflow their buffer and accept a struct exactly if no two names written (or names and aliases read), through flattened members, are equal as C strings. (That a struct accepted by both can be written is expected to fail: the check at run time compares all names.)", "quantifier": "all reflected types", "why_tests_cant": "The check runs in the compiler; each type is another program.", "anchors": ["include/kl/detail/serialization.hpp:236-411 cstr_name_set, serialize_field_names_validator, deserialize_field_names_validator", "include/kl/detail/serialization.hpp:415-488 reserved_field_names"]}
{"id": "C108", "title": "Floating point numbers in JSON are kept or rounded to the nearest", "statement": "A float is written as the double with the same amount and sign and reads back with the same bits. A double read into a float gives the nearest float (ties to even), an infinity from the overflow threshold on, with sign, infinities and NaN kept. An integer read into a floating point field gives the nearest double, exactly up to 2^53. (That all integers and the bits of NaN are kept is expected to fail.)", "quantifier": "all 2^32 floats, all 2^64 doubles, all integers", "why_tests_cant": "2^64 bit patterns and unbounded integers.", "anchors": ["include/kl/json.hpp:585-589 dump_adl(double)", "include/kl/json.hpp:725-730 deserialize_adl floating point"]}
{"id": "C109", "title": "Validators with limits accept exactly the numbers within them", "statement": "range, greater_equal and less_equal on a number of any integer or floating point type with limits of any such types accept exactly the numbers not below the lower and not above the upper limit, whenever the usual arithmetic conversions keep both operands. Empty optionals are refused by lower limits and pass upper ones. After a successful read of an object that names the field, the number is within its range. (Expected to fail without the condition: mixed signedness, integers above 2^53, NaN.)", "quantifier": "all integer and floating point types, values and limits, all documents", "why_tests_cant": "All pairs of types and all values.", "anchors": ["include/kl/serialization_attributes.hpp:133-168 range, greater_equal, less_equal", "include/kl/detail/serialization.hpp:62-225 run_validators"]}
{"id": "C110", "title": "Builders make the document of the equivalent tuple or struct", "statement": "Adding values to a to_array builder and calling done gives the document that serializing the tuple of the values gives, and fails when that fails. Adding named values to a to_object builder gives the document of the struct with these members, provided the names are still readable and unchanged when the document is read (and different, for YAML). (That names need not survive, that a repeated name means the same in both backends, and that done may be called again are expected to fail.)", "quantifier": "all types, values, lists of calls, both backends, both states of the name buffers", "why_tests_cant": "All sequences of calls over all types; dangling names show no symptom in most test runs.", "anchors": ["include/kl/json.hpp:167-262 array_builder, object_builder", "include/kl/yaml.hpp:116-187 array_builder, object_builder"]}
{"id": "C111", "title": "Extractors read as the equivalent struct", "statement": "Extracting members one after the other from an object reads the values, and reports the first error, as the struct with these members and no attributes does, but for the line naming the struct; extracting elements from an array likewise. What builders made is extracted again under the conditions of C30. (That every name can be extracted and that the index grows are expected to fail.)", "quantifier": "all documents, types, previous values, lists of calls, both backends", "why_tests_cant": "All documents and all sequences of calls.", "anchors": ["include/kl/json.hpp:264-350 object_extractor, array_extractor", "include/kl/yaml.hpp:189-263 object_extractor, array_extractor"]}
{"id": "C112", "title": "The description of an exception shows what is attached", "statement": "diagnostic_info is the line with file, line number and function, then one line for each value that was set and not removed, newest first for each tag: name = text, or the bytes in hexadecimal for types without operator<<. When no name or value has a new line and no name an equals sign, equal texts mean equal names and values. exception_diagnostic_info gives the same through an exception_ptr as through a reference to a polymorphic base, and for an exception thrown by throw_with_info it starts with the description of the exception itself. (That all values are always shown, that any values can be told apart, and that the information is shown through every reference are expected to fail.)", "quantifier": "all histories of operations, names, values, places, exceptions", "why_tests_cant": "All histories and all texts.", "anchors": ["include/kl/exception_info.hpp:36-73 diagnostic_info_impl", "include/kl/exception_info.hpp:206-223 diagnostic_info", "include/kl/exception_info.hpp:300-354 exception_diagnostic_info"]}
{"id": "C113", "title": "Types customized by the user", "statement": "Types without customizations resolve to the functions of the library. A value of a type built from customized ones is read back, by either backend, when the serialize and deserialize of each customized type come from the same place and are inverse to each other; a stream and a tree get the same document when dump and serialize come from the same place and agree. A type whose serializer<T> has deserialize but no patch is not patched, however deep it is in the patched type. (That overloads of deserialize_adl without patch_adl, overloads for every tag on reflected types, and half customized types behave as one would expect is expected to fail.)", "quantifier": "all types built from customized and other types, all customizations, values, documents, both backends", "why_tests_cant": "All types and all user functions.", "anchors": ["include/kl/serialization.hpp:56-230 dump, serialize, deserialize, patch", "include/kl/detail/serialization.hpp:26-63 is_serializer_patch_compatible_v", "include/kl/json.hpp:774-814 backend_traits", "include/kl/yaml.hpp:579-633 backend_traits"]}
{"id": "C114", "title": "Signals have no data race", "statement": "When threads connect, disconnect, copy and drop connections, block, emit, swap, move and destroy signals in any interleaving, any two accesses of different threads to the same slot, link or signal that are not both reads and not both atomic are ordered by happens-before, built from the order within a thread, the regions under the mutexes, the acquire and release operations on the atomic members and the ordering user code owes: changes of one connection object, and the creation of a signal before its direct uses. A release() of the reference count weaker than acq_rel would be a data race.", "quantifier": "all numbers of threads, all interleavings, all operations", "why_tests_cant": "A race shows only under rare schedules and some processors; all schedules are covered.", "anchors": ["include/kl/signal.hpp:25-43 ref_counted", "include/kl/signal.hpp:44-101 slot_state", "include/kl/signal.hpp:400-760 signal", "include/kl/signal.hpp:761-860 signal internals"]}
{"id": "C115", "title": "The text of a JSON dump", "statement": "For a value that can be serialized, whose doubles are finite and written as a numeral that is read as the same double, and whose strings are shorter than 715827883 bytes, dump and pretty_dump return a text that by RFC 8259 means exactly the document serialize gives: without white space, or with every element and member on a line of its own, indented by four spaces a level. Integers always fit. If all strings are UTF-8, so is the text. (That the text of every dump is a JSON text of the document is expected to fail: NaN, strings of 2^32 bytes.)", "quantifier": "all reflected types and values, both layouts, any conversion of doubles", "why_tests_cant": "All strings of bytes, all nestings and all values.", "anchors": ["include/kl/json.hpp:816-837 pretty_dump, dump", "include/kl/json.hpp:400-410 write_key_impl", "include/kl/json.hpp:533-609 dump_adl"]}
{"id": "C116", "title": "What parse accepts", "statement": "parse accepts a text as a document exactly if the text, after any of the bytes of a byte order mark and up to a zero byte, is a JSON text by RFC 8259 that means this document: escapes decoded to UTF-8, surrogate pairs joined and lone surrogates rejected, integers from -2^63 to 2^64-1 exact, members in order with duplicates kept. A text means at most one document. Otherwise parse throws parse_error and nothing else. The strings of a UTF-8 text are UTF-8. (That parse rejects every text that is not JSON is expected to fail.)", "quantifier": "all texts of bytes, any conversion of numerals to doubles", "why_tests_cant": "All texts; both directions of the equivalence.", "anchors": ["include/kl/json.hpp:860-867 parse", "include/kl/json.hpp:916-919 operator\"\"_json"]}
{"id": "C117", "title": "A value survives being dumped to JSON text, parsed and deserialized", "statement": "Under the conditions under which a value survives serialization and deserialization, and the conditions of C115, deserializing the parsed text of a dump or pretty_dump gives the value back.", "quantifier": "all reflected types, values, previous contents of the target, both layouts", "why_tests_cant": "All values; the conditions under which it holds are explicit.", "anchors": ["include/kl/json.hpp:816-837 pretty_dump, dump", "include/kl/json.hpp:860-867 parse"]}
{"id": "C118", "title": "The double a numeral is read as", "statement": "Every numeral of RFC 8259 is read as a finite double with the sign of the numeral or rejected as too big; the table of powers of ten is not read outside its bounds. A numeral whose digits make a number below 2^53 and whose decimal point is moved by at most 22 places is accepted and read as the double nearest to the number it stands for, ties to even. Digits of the fraction that come after eighteen digits of the number (seventeen if the number is below one; zeros in front do not count) change nothing; these are the least numbers of digits for which that is so. (That every numeral is read as the nearest double, and that only numbers beyond the range are rejected, is expected to fail.)", "quantifier": "all numerals: any digits, any fraction, any exponent", "why_tests_cant": "Unboundedly many numerals; rounding of each of them is claimed.", "anchors": ["include/kl/json.hpp:860-867 parse", "external/CMakeLists.txt:9-10 rapidjson"]}
{"id": "C119", "title": "Which doubles survive dump and parse", "statement": "A value whose doubles are written with digits that make a number below 2^53, the decimal point moved by at most 22 places, closer to the double than to any other, survives being dumped to text, parsed and deserialized, under the other conditions of C117. (That every finite double written as the numeral closest to it survives is expected to fail.)", "quantifier": "all reflected types and values, both layouts, any way of writing doubles", "why_tests_cant": "All doubles written with up to 15 digits; exhaustive testing is impossible.", "anchors": ["include/kl/json.hpp:816-837 pretty_dump, dump", "include/kl/json.hpp:860-867 parse"]}
{"id": "C120", "title": "KL_REFLECT_ENUM stands for the documented code", "statement": "KL_REFLECT_ENUM(name, ...) and KL_REFLECT_ENUM_SEQ(name, ...) expand, by the rules of the preprocessor, to exactly the namespace, table and two functions documented: one entry per enumerator in order, each with its constant and its text, which is the second element of the tuple where there is one. The result is unique. (That the call of KL_REFLECT_ENUM_SEQ shown in reflect_enum.hpp is one that can be expanded, and that the text is the name as written when that name is itself a macro, is expected to fail.)", "quantifier": "all names, all lists of up to 64 enumerators (256 for the sequence form) of any tokens, all sets of other macros of the program that do not clash", "why_tests_cant": "Every reflected enum is another expansion; a test sees the few it contains, and never the interaction with macros of another program.", "anchors": ["include/kl/reflect_enum.hpp:121-152 KL_REFLECT_ENUM", "include/kl/reflect_enum.hpp:10-70 documentation", "include/kl/detail/macros.hpp:19-137 KL_TUPLE_FOR_EACH and others"]}
{"id": "C121", "title": "KL_REFLECT_STRUCT and its variants stand for the documented code", "statement": "KL_REFLECT_STRUCT, KL_REFLECT_STRUCT_FRIEND, KL_REFLECT_STRUCT_DERIVED and KL_REFLECT_STRUCT_DERIVED_FRIEND expand to exactly the two functions documented: the bases are visited first, in order, then the members in order, each with its name and one nullary lambda per attribute; the number returned is that of the members plus those of the bases. (That an attribute with a comma outside parentheses stays whole is expected to fail.)", "quantifier": "all types, all lists of 1 to 64 fields with up to 63 attributes each, all lists of bases, any tokens, all other macros that do not clash", "why_tests_cant": "Every reflected struct is another expansion.", "anchors": ["include/kl/reflect_struct.hpp:120-206 KL_REFLECT_STRUCT", "include/kl/reflect_struct.hpp:9-104 documentation", "include/kl/detail/macros.hpp:19-137 KL_TUPLE_FOR_EACH and others"]}
{"id": "C122", "title": "KL_ACCESSOR_FIELD and KL_DEFER stand for the documented code", "statement": "KL_ACCESSOR_FIELD(m) and KL_ACCESSOR_FIELD_NAMED(name, expression) expand to a call of factory.accessor with the text and a lambda returning the expression by reference; KL_DEFER(actions) expands to a lambda that captures by reference and a guard over it, with commas in the action kept. Two uses of KL_DEFER declare different names whenever __COUNTER__ gives different numbers.", "quantifier": "all arguments of any tokens, all values of __COUNTER__", "why_tests_cant": "Every use is another expansion.", "anchors": ["include/kl/reflect_struct.hpp:208-213 KL_ACCESSOR_FIELD", "include/kl/defer.hpp:20-28 KL_DEFER"]}
{"id": "C123", "title": "filter keeps exactly the types that satisfy the predicate, in order", "statement": "For every predicate template whose value is decided for every type, filter_t<P, Ts...> is the type_pack of exactly those types of Ts... that satisfy P, in their order, and filter_t<P, type_pack<Ts...>> is the same; push_front_t<T, type_pack<Ts...>> is type_pack<T, Ts...>. (That this holds whatever the types of Ts... are is expected to fail: a type_pack that comes last in the list is not tested but spread.)", "quantifier": "all predicates, all lists of types of any length, also with packs inside", "why_tests_cant": "a compile-time test instantiates a handful of lists; partial specializations are chosen anew at every step of the recursion, which only an induction covers", "anchors": ["include/kl/meta.hpp:9-20 push_front", "include/kl/meta.hpp:22-49 filter"]}
{"id": "C124", "title": "at_type and type_pack::extract give the n-th type and nothing else", "statement": "at_type_t<N, Ts...> and type_pack<Ts...>::extract<N>::type are the N-th type of the list (counted from 0) if there is one; otherwise the program is ill-formed; type_pack<Ts...>::value is the number of types.", "quantifier": "all lists of types of any length, all indices", "why_tests_cant": "a test that must not compile cannot be part of the suite, and the recursion is over lists of any length", "anchors": ["include/kl/utility.hpp:47-66 at_type", "include/kl/utility.hpp:67-75 type_pack"]}
{"id": "C125", "title": "func_traits describes every function, method and function object it accepts", "statement": "For a function type, a pointer to a function, a pointer to a member function (const or not), a function object with one call operator (const or not), and references to these, func_traits gives the return type, the signature, the arguments as a pack, their number, the N-th argument, and the class that declares the operator or member function (none for functions); for every other type the program is ill-formed. (That everything which can be called is accepted is expected to fail: since C++17 noexcept is part of the type.)", "quantifier": "all types and all programs (which classes have which call operator)", "why_tests_cant": "the primary template and seven partial specializations compete for every type; tests name a few types, the rest of the type space is infinite", "anchors": ["include/kl/type_traits.hpp:14-74 func_traits"]}
{"id": "C126", "title": "is_same, remove_cvref, enable_if and member_pointer_traits compute what they say", "statement": "kl::is_same<T, U, Rest...> is true exactly if all the types are the same and needs two at least; remove_cvref_t takes off a reference and then const and volatile; enable_if<Cs...> is bool if all conditions hold and no type otherwise, and the conditions behind the first false one are not instantiated; member_pointer_traits<&C::m> gives the type of the member and the class that declares it.", "quantifier": "all lists of types and of conditions of any length, all programs", "why_tests_cant": "the variadic recursion and the short circuit concern lists of any length, and what must not compile cannot be in a test", "anchors": ["include/kl/type_traits.hpp:76-118 is_same, remove_cvref, member_pointer_traits", "include/kl/utility.hpp:16-18 enable_if"]}
{"id": "C127", "title": "match calls the handler of the held alternative", "statement": "If there is exactly one handler for the type of every alternative, match compiles and calls the handler of the held alternative once with the held value, whatever conversions to other handlers exist; the variant changes only through a handler that takes a non-const reference; a valueless variant throws and calls nothing. A handler for T wins against handlers that take anything, those are taken for all other types even if they could be converted, and the order of handlers does not matter. Among handlers for other types the one called needs the least conversion, among those for bases the nearest; auto& comes before auto&& and const auto&. In every program that compiles all alternatives have a handler and all handlers return the same type. (That this holds for every kind of handler, that a forgotten handler is an error, that an rvalue variant is passed as one, and that references returned by handlers come out as references are expected to fail.)", "quantifier": "all types, conversions and class hierarchies, all lists of handlers of any length, all variants", "why_tests_cant": "overload resolution compares every pair of handlers for every alternative; a test fixes a few handlers and types and cannot contain programs that do not compile", "anchors": ["include/kl/match.hpp:19-26 overloader", "include/kl/match.hpp:28-51 func_overload", "include/kl/match.hpp:53-57 match"]}
{"id": "C128", "title": "range goes over the whole container with the right iterators", "statement": "range{c} deduces iterator for a container that can be changed, const_iterator for a const or temporary one, a pointer for an array, and its own type for a range, and is made of the first and last position of c; going through it visits exactly the elements between these positions in order, size() is their number. (That a range of iterators converts to one of constant iterators, and that a const container with begin and end suffices, are expected to fail.)", "quantifier": "all containers, arrays and ranges, lvalues and rvalues, const or not", "why_tests_cant": "four constructors, four deduction guides and the implicit ones compete for every kind of argument; programs that do not compile cannot be in a test", "anchors": ["include/kl/range.hpp:9-76 range", "include/kl/range.hpp:78-90 deduction guides"]}
{"id": "C129", "title": "The overload that a type gets is the one meant for it", "statement": "Overload resolution between the functions for numbers, strings, views, enums, sets of enums, tuples, pairs, optionals, ranges, maps and reflected structs picks for every type the function for what it stands for, at every depth, whatever its classes convert to or derive from; and for types without conversions and bases nothing else compiles but a stated list of oddities. (That JSON writes every number it reads, and that a YAML node is written as the document it holds, are expected to fail; pointers and arrays are written to streams as true, reflected containers are not written, classes derived from std::string are sequences.)", "quantifier": "all types built of arithmetic types, pointers, arrays, strings, views, enums, tuples, optionals, containers and classes; JSON and YAML; streams, trees and reading; LP64 and LLP64", "why_tests_cant": "the choice is made by the compiler among dozens of candidates, and types are of unbounded depth; types that do not compile cannot be in a test", "anchors": ["include/kl/detail/concepts.hpp:9-53 concepts", "include/kl/detail/serialization.hpp:616-1118 overloads", "include/kl/json.hpp:506-762 dump_adl, serialize_adl, deserialize_adl", "include/kl/yaml.hpp:423-602 dump_adl, serialize_adl, deserialize_adl"]}
{"id": "C130", "title": "dump, serialize and deserialize agree about the kind of every type", "statement": "If a type without conversions and bases can be handled by two of dump, serialize and deserialize of one backend (in YAML: by dump and serialize), both take it as the same kind of document at every depth; across backends and between writing and reading of YAML too if neither char nor views of strings occur in it. (That YAML reads what it writes for every type, that what goes to a JSON stream goes to a tree, and that classes with conversions are treated alike, are expected to fail.)", "quantifier": "all pairs of functions, both backends, all types as in C129", "why_tests_cant": "each function has its own list of overloads with constraints of its own; agreement is about all types", "anchors": ["include/kl/detail/concepts.hpp:9-53 concepts", "include/kl/detail/serialization.hpp:616-1118 overloads", "include/kl/json.hpp:506-762 dump_adl, serialize_adl, deserialize_adl", "include/kl/yaml.hpp:423-602 dump_adl, serialize_adl, deserialize_adl"]}
{"id": "C131", "title": "Every slot gets the arguments of the emission", "statement": "Arguments passed by value or by reference to const reach every function, also those of signals connected to signals at any depth, as the caller passed them, even if functions before moved from or changed their parameters; the caller's objects are moved from only if given away and otherwise unchanged. Arguments by reference are one object for all: each function sees what those before it made of it. In general an emission behaves as if there were no std::function, lambdas, copies or moves in between. (That a const argument keeps its value while another argument refers to the same object is expected to fail.)", "quantifier": "all signals, chains of signals, signatures, functions and objects; any aliasing between arguments", "why_tests_cant": "one slot that moves from its parameter spoils those behind it only for some signatures and depths; bodies are arbitrary functions", "anchors": ["include/kl/signal.hpp:456-574 connect", "include/kl/signal.hpp:587-648 operator()"]}
{"id": "C132", "title": "Which emissions compile and how many copies they make", "statement": "An emission compiles exactly if every argument can be passed repeatedly (by reference, or a value that can be copied) and every function accepts it as the signature announces; it then makes exactly one copy of every argument by value for every slot, besides those that initialize parameters from lvalues. (That values that cannot be copied, and rvalue references, can be emitted at least to one slot is expected to fail.)", "quantifier": "all signals, chains of signals and signatures", "why_tests_cant": "programs that do not compile cannot be in a test; counts depend on every layer", "anchors": ["include/kl/signal.hpp:456-574 connect", "include/kl/signal.hpp:587-648 operator()"]}
{"id": "C133", "title": "Slots whose functions own connections: memory", "statement": "Whatever connections functions of slots own (of other slots, of their own, in cycles), no slot is used after it was freed or freed twice, reference counts are exact, and every mutex is free between operations. Slots exist exactly as long as they are reachable from a signal, a connection of the program, or the function of a reachable slot, if ownership is not cyclic; so all are freed once signals and connections are gone. Scoped connections owned by a function that was destroyed are disconnected. (That a slot that owns its own connection is freed with the signal, and that disconnecting frees the function, are expected to fail.)", "quantifier": "all programs of connects, copies, moves into functions, disconnects, emissions, destructions; all ownership graphs", "why_tests_cant": "destroying one function may cascade through any graph of slots and signals; leaks and use after free appear only in particular shapes", "anchors": ["include/kl/signal.hpp:25-102 ref_counted, slot_state", "include/kl/signal.hpp:118-181 connection", "include/kl/signal.hpp:317 ~scoped_connection", "include/kl/signal.hpp:658-850 removal of slots"]}
{"id": "C134", "title": "Slots whose functions own connections: the mutex", "statement": "Copying, dropping, disconnecting connections, connecting and beginning an emission never wait, whatever functions own. disconnect_all_slots, the destructor of a signal and the end of an emission do not wait if no slot removed there leads, through what functions own, to a scoped connection to a slot still connected to the same signal; hence never in programs where functions own only connections to slots of lower levels. (That they never lock a mutex they hold is expected to fail: functions are destroyed under the mutex.)", "quantifier": "all programs and ownership graphs as in C133", "why_tests_cant": "a deadlock needs the last reference to be the list's and a scoped connection back into the same signal, possibly through other slots", "anchors": ["include/kl/signal.hpp:410 ~signal", "include/kl/signal.hpp:613-622 end of an emission", "include/kl/signal.hpp:658-676 disconnect_all_slots", "include/kl/signal.hpp:837-850 remove_slot_locked"]}
{"id": "C135", "title": "Exceptions thrown with information are caught like those thrown without", "statement": "throw_with_info(e, xi) compiles exactly for classes that are not final, do not derive from exception_info in any way and whose virtual bases have default constructors. What it throws is caught by exactly the handlers that catch the static type of e, plus those for exception_info, exception_with_info_base and exception_with_info<E>; so a try block without handlers for these takes the same handler as for a plain throw. Handlers are those for the class and its unambiguous public bases. (That throwing a caught reference again keeps it caught by the handlers for what was thrown at first is expected to fail: only the static type is kept.)", "quantifier": "every class with any tree of public, private, virtual and repeated bases, every list of handlers", "why_tests_cant": "Class hierarchies and handler lists are unbounded.", "anchors": ["include/kl/exception_info.hpp:241-255 exception_with_info", "include/kl/exception_info.hpp:257-273 throw_with_info"]}
{"id": "C136", "title": "Information is found from any public reference to the exception", "statement": "get_exception_info on a reference to any subobject of an exception thrown with information, of any polymorphic static type, returns the information that was passed if there is a public way from the exception to that subobject and null otherwise; so it finds it in every handler whose type is polymorphic. It returns null for exceptions thrown without; with a static type without virtual functions it does not compile, and only that type is described. exception_diagnostic_info shows the static type given to throw_with_info, a line of what() when the static type derives from std::exception or the thrown type has it as unambiguous public base, and the information; with an exception_ptr, also for handlers that know no type. (That a reference to a private base finds it, that information survives another throw_with_info of the caught reference, and that exception_ptr describes polymorphic exceptions that are not std::exception like a reference does, are expected to fail.)", "quantifier": "every class hierarchy, every subobject, every polymorphic static type", "why_tests_cant": "dynamic_cast across unbounded hierarchies with ambiguous, private and virtual bases.", "anchors": ["include/kl/exception_info.hpp:230-239 exception_with_info_base", "include/kl/exception_info.hpp:275-287 get_exception_info", "include/kl/exception_info.hpp:289-345 exception_diagnostic_info"]}
{"id": "C137", "title": "Exceptions thrown with information hold what they held", "statement": "The thrown object has every subobject of the static type of e, with the members of e in all that are not virtual bases or inside them; those are default-constructed. (That nothing is lost is expected to fail for classes with virtual bases.)", "quantifier": "every class hierarchy, every contents, every reference", "why_tests_cant": "Unbounded hierarchies; the tests have no virtual bases.", "anchors": ["include/kl/exception_info.hpp:245-254 exception_with_info", "include/kl/exception_info.hpp:257-273 throw_with_info"]}
{"id": "C138", "title": "Views of YAML documents show a part of a document and change none", "statement": "An object deserialized from nothing (deserialize<T>(node)) changes no document; its views are nodes of the document that was read, or new null ones for missing fields, and every part of it is the node that its index or the first entry with its name gives. Deserialization and patching end without an exception exactly when the document fits the type, whatever the target holds apart from the document; a patch keeps the members that it does not name. Deserializing, patching or assigning into an existing object changes no document that contains none of the nodes its views outside of containers show; a view always ends up showing what it was deserialized from. (That documents stay as they are when an object with views is deserialized into, patched or assigned a second time is expected to fail: the node that the view showed is rewritten in its own document, possibly into a part of itself.)", "quantifier": "every memory of nodes, every type made of strings, views, sequences, maps, optionals, tuples and structures, every target, every node", "why_tests_cant": "Documents, types and sharing are unbounded; the tests deserialize views once, into new objects.", "anchors": ["include/kl/yaml.hpp:29-46 view", "include/kl/yaml.hpp:99-117 at", "include/kl/yaml.hpp:563-567 deserialize_adl", "include/kl/detail/serialization.hpp:817-1117 deserialize_adl", "include/kl/detail/serialization.hpp:1122-1242 patch_adl"]}
{"id": "C139", "title": "Connections compare as the connect calls they stand for, also when addresses are used again", "statement": "Whatever a program does with signals, connections, scoped connections and blockers (connect, copy, move, assign, swap, destroy, disconnect, release, block), and whichever free addresses new slots get, also those of slots that are gone: no handle reads a slot that no longer exists; each handle stands for one call of connect or for none; two connections are equal exactly if they stand for the same call or both for none, < is a strict total order that agrees with ==, and equal connections have equal hashes; neither changes while the variables themselves are not written to; connected() and emissions follow the call; a slot exists as long as a signal has it or a handle stands for it, and no longer. (That copies of a connection stay equal when one of them disconnects is expected to fail.)", "quantifier": "every program of these operations, every allocator that returns free addresses", "why_tests_cant": "Programs and allocation patterns are unbounded; equality of pointers to slots that were freed and allocated again depends on the allocator.", "anchors": ["include/kl/signal.hpp:25-110 slot_state", "include/kl/signal.hpp:117-298 connection", "include/kl/signal.hpp:306-367 scoped_connection", "include/kl/signal.hpp:888-909 hash"]}
{"id": "C140", "title": "A slot is called until it is disconnected, and never after, by whichever handle", "statement": "A slot leaves its signal when a connection that stands for it is disconnected, when a scoped connection that owns it ends, and when its signal disconnects all slots or ends; nothing else takes it off (copies, moves, swaps, released scoped connections, the end of plain connections and blockers), and afterwards no emission calls it again, whatever follows. Assigning a temporary to a scoped connection disconnects the slot it had. (That assigning a scoped connection that lives on does so is expected to fail: the two are swapped.)", "quantifier": "every program of these operations, every allocator that returns free addresses", "why_tests_cant": "Programs are unbounded; the tests disconnect each slot by one handle.", "anchors": ["include/kl/signal.hpp:174-181 connection::disconnect", "include/kl/signal.hpp:306-367 scoped_connection", "include/kl/signal.hpp:415-482 signal", "include/kl/signal.hpp:658-729 disconnect"]}
{"id": "C141", "title": "JSON trees outlive the objects they were made from", "statement": "A tree that json::serialize makes of an object of strings, numbers, containers, maps with std::string keys, structures and hooks that add literal or dynamic names can be read, and says what the object said, as long as the allocator it was made with lives, whatever becomes of the object. Every other tree can be read exactly as long as the regions it keeps pointing to live as well: names given to object_builder::add, const char* keys of maps, rapidjson string references, values moved in, and what copies of views share with the original. Serialization itself is undefined exactly if a source is gone or a json::view shows nothing. (That those trees, and trees whose owning_serialize_context has ended, can be read, and that an empty view can be serialized, is expected to fail.)", "quantifier": "every object, every set of live regions before and after, every length up to which RapidJSON stores texts in the value", "why_tests_cant": "Dangling pointers often read right; objects are unbounded, and the tests use literals and short strings.", "anchors": ["include/kl/json.hpp:40-57 view", "include/kl/json.hpp:82-120 contexts", "include/kl/json.hpp:168-252 builders", "include/kl/json.hpp:417-460 json_tree_backend", "include/kl/json.hpp:610-665 serialize_adl", "include/kl/detail/serialization.hpp:570-612 add_reflected_fields", "include/kl/detail/serialization.hpp:717-813 serialize_adl"]}
{"id": "C142", "title": "What is deserialized outlives the document, unless it contains views", "statement": "parse copies its text. Deserialization from a live document reads nothing that is not alive, and gives exactly what the document says, the first member of each name, or an exception when it says nothing for the type. An object of a type without std::string_view and json::view can be used when the document is gone; any other as long as the document lives, also after the document was moved, if it does not show the root of the document itself. Views of missing fields show a static value. (That objects with views can be used when the document is gone, and that views of the root survive a move, is expected to fail.)", "quantifier": "every tree, every type made of numbers, strings, views, sequences, maps, optionals and structures, every set of live regions", "why_tests_cant": "Dangling pointers often read right; trees and types are unbounded.", "anchors": ["include/kl/json.hpp:135-163 at", "include/kl/json.hpp:735-765 deserialize_adl", "include/kl/json.hpp:862-915 parse, deserialize", "include/kl/detail/serialization.hpp:817-1117 deserialize_adl"]}
{"id": "C143", "title": "Enum operators are found wherever the traits enable them", "statement": "An operator of enum_traits.hpp applied to an enum whose traits enable it calls the operator of the global namespace at every place after the header, also in other namespaces and in templates; an operator that the program declares for exactly these operands is preferred wherever it is found. (That it is found everywhere is expected to fail: a namespace around the place that has any function of that name, as kl has with the shifts of binary_rw.hpp, hides it, unless the enum or a using-declaration beside it is in the global namespace or the enum's own. The exact condition is proved.)", "quantifier": "every program of declarations, using-declarations and using-directives in nested namespaces, every place, every operator and enum", "why_tests_cant": "The tests use the operators in the global namespace; programs and places are unbounded.", "anchors": ["include/kl/enum_traits.hpp:20-48 traits", "include/kl/enum_traits.hpp:97-189 enums::operators", "include/kl/enum_traits.hpp:191-308 global operators", "include/kl/binary_rw.hpp:187-192 operator>>", "include/kl/binary_rw.hpp:259-264 operator<<"]}
{"id": "C144", "title": "using namespace kl::enums::operators gives operators to enums and changes nothing else", "statement": "Where kl::enums::operators is nominated in a block, enums without traits have all operators; enums with traits become ambiguous; writing an int to a binary_writer or reading one becomes ambiguous, other operands of them do not. Shifts of unscoped enums by numbers other than int and those promoted to it are ambiguous with either set of operators. (That the directive is harmless is expected to fail.)", "quantifier": "every program, place, operator, enum and type of the other operand", "why_tests_cant": "The one test with the directive uses an enum without traits; ambiguity shows when compiling only the programs that have it.", "anchors": ["include/kl/enum_traits.hpp:97-189 enums::operators", "include/kl/enum_traits.hpp:285-308 shifts", "include/kl/binary_rw.hpp:187-192 operator>>", "include/kl/binary_rw.hpp:259-264 operator<<"]}
{"id": "C145", "title": "Fields reached through accessors behave as members", "statement": "When the places the accessors refer to do not overlap, deserializing or patching the object, successfully or not, does to those places what it does to the members of a struct with the same attributes and types, and leaves the rest of the object alone; serializing writes what it writes for the struct of the values the accessors give, overlapping or not, with computed fields that are only written, and nothing is written when an accessor of a written field refers to nothing.", "quantifier": "every list of fields, attributes, types and places (nested members, elements, contents of optionals), every object, document and backend", "why_tests_cant": "The tests read a single struct with four accessors; places, fields and documents are unbounded.", "anchors": ["include/kl/ctti.hpp:150-179 accessor_field", "include/kl/ctti.hpp:197-215 accessor_field_descriptor", "include/kl/ctti.hpp:235-249 type_field_factory::accessor", "include/kl/ctti.hpp:276-306 runtime_field_factory", "include/kl/reflect_struct.hpp:208-213 KL_ACCESSOR_FIELD", "include/kl/detail/serialization.hpp:569-612 add_reflected_fields", "include/kl/detail/serialization.hpp:900-1037 deserialize_adl", "include/kl/detail/serialization.hpp:1120-1218 patch_adl"]}
{"id": "C146", "title": "Accessors that refer to overlapping places", "statement": "An object whose accessors refer to overlapping places comes back from its own document when every place exists at its turn, from the start or inside a place that was read before; of the fields at one place the last one decides; validators accept what was read. (That the order of the fields does not matter, that a document comes back from the object, and that validators see what was read are expected to fail: a place inside a container read too early is undefined behaviour, a default or another value of a later field replaces an earlier one, and an accessor that selects its place may give the validator another one.)", "quantifier": "every list of fields and places, every two objects of one type, every document and backend", "why_tests_cant": "No test has overlapping accessors.", "anchors": ["include/kl/ctti.hpp:150-179 accessor_field", "include/kl/detail/serialization.hpp:144-187 apply_default_value, validate_field", "include/kl/detail/serialization.hpp:959-977 ordinary fields"]}
{"id": "C147", "title": "The text of a conflict answer is that of the exception that caused it", "statement": "With validators that modify nothing and always say the same of the same value: a request is answered 409 exactly if there is a reason for it (a serialization validator of the document threw such an exception, the key of a posted element is taken, the candidate is vetoed, or the first node of the changed object that objects, parents before children, threw one), and then the body is what() of that exception up to its first zero, \"duplicate child key\" for keys, and the object is as before.", "quantifier": "every schema, object, request, verdict of the validators and text", "why_tests_cant": "Tests look at the body in a handful of requests with one objection each; here any number of parts object, in any places.", "anchors": ["include/kl/resource.hpp:143-194 exceptions", "include/kl/resource_op.hpp:123-134 validate_candidate", "include/kl/resource_op.hpp:331-392 validate_tree", "include/kl/resource_op.hpp:868-917 put", "include/kl/resource_op.hpp:919-972 post", "include/kl/resource_op.hpp:974-1021 patch", "include/kl/resource_op.hpp:1023-1089 del"]}
{"id": "C148", "title": "Validators with state of their own do not endanger the object", "statement": "Let the validators modify nothing they validate, but depend on and change other state. Then every request does what it does with some fixed verdicts: refused requests change nothing, other locations are left alone, read-only parts and the keys in the path stay, histories keep the values in their types.", "quantifier": "every state type, every such validator, schema, object, request and history", "why_tests_cant": "The validators of the tests look at their argument only.", "anchors": ["include/kl/resource_op.hpp:84-134 validate_candidate", "include/kl/resource_op.hpp:351-392 validate_tree", "include/kl/resource_op.hpp:868-1089 put, post, patch, del"]}
{"id": "C149", "title": "Validators that tidy up single values", "statement": "Validators get references that are not const. Let those of single values normalise them (what they accepted they leave as it is) and the others modify nothing, and let the object be one they leave as it is. Then a refused request changes nothing, a successful one changes the part it is about only, to what was read after every single value passed its validator, the result is again such an object, and a put or patch keeps the key it was found by. (That this needs no such object, and that keys stay distinct, are expected to fail: a refused request leaves what validators did to other parts; keys are compared before they are normalised, and after two equal ones got in every change is refused.)", "quantifier": "every such validator with any state, every schema, object, request and history", "why_tests_cant": "No test has a validator that modifies anything.", "anchors": ["include/kl/resource_op.hpp:84-134 validate_candidate", "include/kl/resource_op.hpp:331-392 validate_tree", "include/kl/resource_op.hpp:397-457 rollback_value, pop_back_rollback", "include/kl/resource_op.hpp:868-1089 put, post, patch, del"]}
{"id": "C150", "title": "Requests with validators that do anything", "statement": "Whatever validators do, a refused request announces nothing, one that is not allowed runs no validator and changes nothing, and the part a refused put, patch or delete is about is what it was. (That a refused post only takes back its element, that rolling back is always defined, that changes are announced and that a successful put can be read at its path are expected to fail: pop_back removes another element when the validator reordered them, a validator that removes the part leaves the rollback with nothing to refer to, other parts change without announcement, the key in the path may be replaced.)", "quantifier": "every validator with any state, every schema, object and request", "why_tests_cant": "No test has a validator that modifies anything.", "anchors": ["include/kl/resource_op.hpp:84-134 validate_candidate", "include/kl/resource_op.hpp:351-392 validate_tree", "include/kl/resource_op.hpp:397-457 rollback_value, pop_back_rollback", "include/kl/resource_op.hpp:868-1089 put, post, patch, del"]}
{"id": "C151", "title": "Extraction from a failed stream", "statement": "operator>> on a binary reader that has failed leaves position, buffer and error alone, empties strings, vectors, maps, sets and optionals and keeps every other value; in a user type that streams its members each member by itself. read in user code does the same as operator>> and a look at the error, except that it leaves the destination alone and returns false if the reader has failed before. (That it keeps every destination as it was, like read does, is expected to fail.)", "quantifier": "every type including user types made of members, every old value, every failed reader", "why_tests_cant": "Tests look at a destination after a failure in a few cases and never stream into it again.", "anchors": ["include/kl/binary_rw.hpp:110-126 read", "include/kl/binary_rw.hpp:174-200 operator>>", "include/kl/binary_rw/string.hpp:19-34 read_binary", "include/kl/binary_rw/vector.hpp:31-71 read_binary", "include/kl/binary_rw/optional.hpp:17-25 read_binary", "tests/binary_rw_test.cpp:771-790 user_defined_type"]}
{"id": "C152", "title": "Any user read_binary keeps the reader inside its buffer", "statement": "Let user types anywhere in a type be read by any code that calls the functions of binary_reader in any order, streams values of any other types and returns or throws, as long as it does not skip by the least ptrdiff_t. Reading the type then has defined behaviour, the position stays in the buffer and the buffer is not changed, also when an exception is thrown; if the reader had failed, it has failed afterwards too and has not moved.", "quantifier": "every type, every user code (a tree of calls that branches on all results), every old value, every reader", "why_tests_cant": "There is one user type in the tests, and its code has no branch.", "anchors": ["include/kl/binary_rw.hpp:33-57 basic_binary_reader_writer", "include/kl/binary_rw.hpp:79-165 binary_reader", "include/kl/binary_rw.hpp:187-200 operator>>", "include/kl/binary_rw/vector.hpp:31-90 read_binary", "include/kl/binary_rw/variant.hpp:11-50 read_binary"]}
{"id": "C153", "title": "Any user write_binary keeps the writer inside its buffer", "statement": "The same for writing: whatever user code writes, skips (backwards too) or throws, behaviour is defined, the buffer keeps its size and the position stays in it, and a writer that had failed changes no byte.", "quantifier": "every type, every user code, every value, every writer", "why_tests_cant": "There is one user type in the tests, and its code has no branch.", "anchors": ["include/kl/binary_rw.hpp:33-57 basic_binary_reader_writer", "include/kl/binary_rw.hpp:203-275 binary_writer", "include/kl/binary_rw/vector.hpp:11-29 write_binary", "include/kl/binary_rw/variant.hpp:35-40 write_binary"]}
{"id": "C154", "title": "How containers of user types are read", "statement": "A vector, map or set whose elements are read by any user code is, if the reader has not failed afterwards, made of exactly the number of elements in the prefix, each read into a fresh object at the place where the last one ended, in this order: the vector of them, the set of them in increasing order, the map with the first value of each key. If the reader has failed it is empty.", "quantifier": "every user code, every nesting, every reader", "why_tests_cant": "No test streams a container of user types.", "anchors": ["include/kl/binary_rw.hpp:119-126 read", "include/kl/binary_rw/vector.hpp:49-71 read_binary", "include/kl/binary_rw/map.hpp:21-36 read_binary", "include/kl/binary_rw/set.hpp:19-35 read_binary"]}
{"id": "C155", "title": "Exceptions thrown while reading", "statement": "If user code throws while a container is read, the container has exactly the elements read before, an optional or variant what it had, a pair what was read of it. (That the destination is then empty or unchanged, and that the reader is marked as failed, are expected to fail.)", "quantifier": "every user code that throws at any point, every nesting, every old value", "why_tests_cant": "No test has an adapter that throws.", "anchors": ["include/kl/binary_rw/vector.hpp:49-71 read_binary", "include/kl/binary_rw/map.hpp:21-36 read_binary", "include/kl/binary_rw/set.hpp:19-35 read_binary", "include/kl/binary_rw/pair.hpp:17-26 read_binary", "include/kl/binary_rw/optional.hpp:17-25 read_binary", "include/kl/binary_rw/variant.hpp:11-50 read_binary"]}
{"id": "C156", "title": "Adapters that fit together round-trip in every container", "statement": "If write_binary and read_binary of the user types in a type agree about the bytes of their values, then every value made of them by vectors, maps, sets, pairs, optionals and variants is written as the bytes these have and read back from them, wherever they are, and the reader ends where the writer did. Streaming the members one after another is such a pair, and behaves like the types without user code.", "quantifier": "every type with user types in it, every value, every buffer with room", "why_tests_cant": "The tests have one user type, streamed by itself.", "anchors": ["include/kl/binary_rw.hpp:79-275 binary_reader, binary_writer", "include/kl/binary_rw/vector.hpp:11-90 adapters", "include/kl/binary_rw/map.hpp:9-36 adapters", "include/kl/binary_rw/set.hpp:9-35 adapters", "include/kl/binary_rw/pair.hpp:9-26 adapters", "include/kl/binary_rw/optional.hpp:9-25 adapters", "include/kl/binary_rw/variant.hpp:11-50 adapters", "tests/binary_rw_test.cpp:771-790 user_defined_type"]}
{"id": "C157", "title": "A dump ends as the serialization does", "statement": "Dumping a value to JSON gives a text, throws or is undefined exactly when serializing it to a document does: the calls made on RapidJSON's writer, also those made before an exception, never break its rules about names, values, and the ends of objects and arrays.", "quantifier": "every conversion of floating-point numbers, both layouts, every type and value whose texts are shorter than 2^32/6 bytes", "why_tests_cant": "The rules are assertions of the writer; the tests dump few values and none that throws half-way inside nested objects.", "anchors": ["include/kl/json.hpp:816-837 dump, pretty_dump", "include/kl/json.hpp:59-80 dump_context", "include/kl/json.hpp:533-609 dump", "include/kl/detail/serialization.hpp:529-567 dump_reflected_fields", "include/kl/detail/serialization.hpp:614-715 dump_adl"]}
{"id": "C158", "title": "priority_tag takes the first that exists", "statement": "Among functions that differ in their priority_tag, a call with priority_tag<n> takes the one with the greatest tag not above n whose return type is valid, if there is exactly one; otherwise it does not compile. The customization points validate_resource and resource_key_matches compile for every type and every user code.", "quantifier": "every list of functions, every n, every program", "why_tests_cant": "The tests are a few types that compile.", "anchors": ["include/kl/utility.hpp:34-37 priority_tag", "include/kl/resource_op.hpp:84-119 validate_candidate, key_matches", "include/kl/resource_op.hpp:136-146 validate_self, key_matches"]}
{"id": "C159", "title": "Which validator is called", "statement": "A public member function of the class, or of the nearest base that declares one, is the validator, whatever else there is. Otherwise it is the function for the type or the nearest base found by argument dependent lookup, by reference before const reference, and before any that needs a conversion; templates come after functions for the type itself and before those for bases; a template that takes any reference comes before a function for the const type. A deleted function switches validation off. Of two functions with the same parameters neither is called. (That a validator declared for a type, or one of its base, is run is expected to fail: ambiguous calls and members that cannot be called are silently no validator, a member that cannot be called hides the one of the base, and a template takes over derived classes.)", "quantifier": "every class chain, every set of user functions in any namespaces", "why_tests_cant": "The tests declare at most one validator for a type.", "anchors": ["include/kl/resource_op.hpp:77-104 validate_resource, validate_candidate", "include/kl/resource_op.hpp:136-140 validate_self"]}
{"id": "C160", "title": "Validators of optionals and their content", "statement": "validate_candidate runs at most one function for an optional and for each optional or value inside that is there, from the outside in. A function that takes its type by reference runs once. (That every validator runs once is expected to fail: one for const std::optional<T>& runs again for a copy of the content.)", "quantifier": "every depth of optionals, every program", "why_tests_cant": "The tests validate optionals with one function each.", "anchors": ["include/kl/resource_op.hpp:62-75 optional_traits", "include/kl/resource_op.hpp:123-134 validate_candidate"]}
{"id": "C161", "title": "Which key comparison is called", "statement": "resource_key_matches is called if argument dependent lookup finds one that takes the const element and is better than every other one found; keys are compared as text otherwise. (That one declared for the element type is used is expected to fail: one that takes the element by reference is silently not used.)", "quantifier": "every element type, every set of user functions", "why_tests_cant": "The tests have one resource_key_matches.", "anchors": ["include/kl/resource_op.hpp:106-119 key_matches", "include/kl/resource_op.hpp:142-146 key_matches"]}
{"id": "C162", "title": "Classes that convert or derive are treated as what they convert to or derive from", "statement": "A class with nothing but a conversion to a number, pointer, array, string or document is written to streams exactly as that type is, also when there is another conversion to a pointer; it is never read. A class that adds nothing to a container, set, tuple, pair, optional or document, at any distance, is written and read exactly as its base.", "quantifier": "all such types, element types, distances; JSON and YAML; streams, trees and reading; LP64 and LLP64", "why_tests_cant": "hierarchies and types are unbounded; the compiler chooses among all overloads and conversion sequences", "anchors": ["include/kl/json.hpp:506-762 dump_adl, serialize_adl, deserialize_adl", "include/kl/yaml.hpp:423-602 dump_adl, serialize_adl, deserialize_adl", "include/kl/detail/serialization.hpp:616-1118 overloads", "include/kl/detail/concepts.hpp:9-53 concepts"]}
{"id": "C163", "title": "Iterators made with iterator_facade behave as positions", "statement": "If dereference, increment, decrement, advance, distance_to and equal_to of a derived class do what is asked of them within a range, every program with the operators of iterator_facade yields the results and positions of the same program on integers as positions. (For iterators that return a reference to a member of theirs, that x[n] is *(x + n) is expected to fail; and distance_to has the opposite sign of Boost's, so that classes written for Boost are ordered backwards.)", "quantifier": "all derived classes, element types, ranges shorter than 2^63, programs over any number of iterators", "why_tests_cant": "the derived class is a parameter, the test has one; programs are unbounded; a dangling reference may read the right value", "anchors": ["include/kl/iterator_facade.hpp:22-178 iterator_facade", "include/kl/iterator_facade.hpp:55-61 operator[]", "include/kl/iterator_facade.hpp:127-133 operator-"]}
{"id": "C164", "title": "What iterator_facade offers", "statement": "A program compiles exactly if it uses only operators of the iterator category and the arrow only for references to lvalues, for values that can be moved and for const values that can be copied. The value type is const exactly if the reference is to const or a const object. Going back by a difference is going forward by its opposite, and undefined for the least difference. (That every iterator with a star has an arrow, and that the value type is never const, are expected to fail.)", "quantifier": "all derived classes, categories, reference types and programs", "why_tests_cant": "programs that do not compile cannot be in a test", "anchors": ["include/kl/iterator_facade.hpp:13-19 arrow_proxy", "include/kl/iterator_facade.hpp:26-37 types", "include/kl/iterator_facade.hpp:47-61 operator->, operator[]", "include/kl/iterator_facade.hpp:77-133 static assertions"]}
{"id": "C165", "title": "Types are patched with what they are read from", "statement": "For every type without conversions and bases, patch compiles exactly if deserialize does, and takes documents of the same kind. (For classes that derive from others this is expected to fail: a container derived from std::optional is read as a sequence and patched as an optional.)", "quantifier": "all types; JSON and YAML; LP64 and LLP64", "why_tests_cant": "types are of unbounded depth; types that do not compile cannot be in a test", "anchors": ["include/kl/detail/serialization.hpp:1120-1242 patch_adl", "include/kl/serialization.hpp:126-158 patch", "include/kl/json.hpp:764-771 patch_adl", "include/kl/yaml.hpp:569-576 patch_adl"]}
{"id": "C166", "title": "Which types can be streamed", "statement": "A type made of numbers, bool, endian numbers, strings, vectors, sets, maps, pairs, optionals, variants and classes with their own functions can be written to a binary stream unless a std::vector<bool> is in it, and read back unless there is one or a variant with an alternative twice. Spans of trivially copyable types, and no others, are streamed: those of const elements are only written, others only read. Sets, optionals and vectors of types that are not simple are read exactly if their elements are and can be default constructed. (That vectors of what can be streamed can be streamed, that what is written can be read, and the reverse, are expected to fail.)", "quantifier": "all types, at any depth", "why_tests_cant": "types are of unbounded depth; types that do not compile cannot be in a test", "anchors": ["include/kl/binary_rw.hpp:68-70 read", "include/kl/binary_rw.hpp:119-126 operator>>", "include/kl/binary_rw.hpp:171-199 write", "include/kl/binary_rw.hpp:246-264 operator<<", "include/kl/binary_rw/vector.hpp:9-91 write_binary, read_binary", "include/kl/binary_rw/variant.hpp:9-51 write_binary, read_binary", "include/kl/binary_rw/string.hpp:11-33 write_binary, read_binary"]}
{"id": "C167", "title": "Programs of several units link", "statement": "A unit gets the headers that its #include lines lead to, each once. A program whose units compile links exactly if at most one unit has binary_rw/string.hpp in it, and kl-json and kl-yaml are linked if functions of theirs are called; all other headers define nothing that could be there twice, and all they declare is defined by the library. (That every header can be included in every unit is expected to fail.)", "quantifier": "all programs of any number of units; both platforms; all choices of libraries; header tables of any shape, cycles too", "why_tests_cant": "the tests are one program, in which one unit streams strings", "anchors": ["include/kl/binary_rw/string.hpp:11-32 write_binary, read_binary", "src/CMakeLists.txt:1-101 add_library", "src/json.cpp:20-71 type_name, expect_integral", "src/yaml.cpp:20-50 type_name, expect_scalar", "include/kl/json.hpp:143-148 expect_integral", "include/kl/yaml.hpp:97-99 expect_scalar", "include/kl/path.hpp:106-133 path"]}
{"id": "C168", "title": "deserialize<T> returns what the document says", "statement": "The result of deserialize<T>(value) is that of reading into a value-initialized T, if every part of a T without initializer or constructor is read from every document. Otherwise a scalar member without initializer, skipped or allowed to be missing and missing, is returned as the storage was. Results are of their type. (That the result is given by the document for every T, as it is within optionals and containers, is expected to fail.)", "quantifier": "all types, documents of both backends and contents of the storage; all choices of members with initializers", "why_tests_cant": "the contents of fresh storage are not under control of a test, and are often zero", "anchors": ["include/kl/json.hpp:881-899 deserialize", "include/kl/yaml.hpp:689-707 deserialize", "include/kl/serialization.hpp:215-223 deserialize"]}
{"id": "C169", "title": "Keys of extra fields can be used", "statement": "An extra_fields map with std::string keys is given the members of the document whose names are not reserved, the first of each name, and its keys can be used whatever else is gone; patching keeps the keys that are there and patches their values. With std::string_view keys, which the library accepts, every key that deserialize makes, and every key that patch adds, refers to a string that is gone; patch adds one exactly if a name is neither reserved nor there. In a std::map of such keys deserialize is undefined exactly if two members whose names are not reserved can be read before anything throws. (That all keys of accepted types can be used is expected to fail.)", "quantifier": "all documents, names, values and containers that find what they hold; all functions that read and patch values", "why_tests_cant": "a dangling key often still shows the characters that were there", "anchors": ["include/kl/detail/serialization.hpp:117-135 check_extra_fields_field", "include/kl/detail/serialization.hpp:917-950 deserialize_adl", "include/kl/detail/serialization.hpp:1144-1185 patch_adl"]}
{"id": "C170", "title": "Resources with computed fields can be read at every path", "statement": "get, dump_at_path and serialize_at_path over structures with fields whose accessor returns by value answer with what the path leads to, unless the path takes an element by index right from such a field: then the element is gone when it is read, and the call is undefined. Nothing else is undefined; fields of computed structures, elements found by child_key and computed fields as a whole can be read. (That every path that leads to something is answered is expected to fail.)", "quantifier": "all types of structures, optionals, maps and sequences, all objects, paths, accessors without effects, keys and parsers of indices", "why_tests_cant": "no test has such a field in a resource, and the memory of the element is often still as it was", "anchors": ["include/kl/resource_op.hpp:506-660 visit_node, visit_at_path", "include/kl/resource_op.hpp:661-683 dump_at_path, serialize_at_path", "include/kl/resource_op.hpp:848-862 get", "include/kl/ctti.hpp:150-179 accessor_field"]}
{"id": "C171", "title": "current_connection names the slot being invoked, also in destructors", "statement": "Whenever code outside emissions, a slot, or the destructor of a slot's function that is destroyed by such code asks for the current connection, the answer is the slot being invoked in the innermost emission, and empty outside emissions; this is never undefined, with any nesting of emissions and any disconnecting in between. At the end of an outermost emission the functions of slots disconnected meanwhile are destroyed; one that asks there is answered with the slot invoked last, and the call is undefined exactly if that slot has been destroyed already or is the one being destroyed. An exception that leaves a slot ends the emission and is never undefined: the slot itself is not destroyed, functions destroyed then are answered with the slot that throws, and afterwards the answer is again the slot of the emission around it, or empty. (That the answer is empty when no slot is being invoked is expected to fail.)", "quantifier": "all numbers of signals, all sequences of connects, disconnects, copies and drops of connections, nested emissions, calls, exceptions and asking destructors on one thread", "why_tests_cant": "no test asks in a destructor; a count raised in freed memory often goes unnoticed", "anchors": ["include/kl/signal.hpp:877-886 current_connection", "include/kl/signal.hpp:587-650 operator()", "include/kl/signal.hpp:726-750 disconnect", "include/kl/signal.hpp:762-786 cleanup_invalidated_slots_locked", "include/kl/signal.hpp:33-38 ref_counted::release"]}
{"id": "C172", "title": "Requests interrupted by an exception", "statement": "Let any construction, assignment, allocation, reading, key comparison or validation during a put, patch, post or delete throw at any moment, with a throwing assignment leaving garbage and moved-from values being arbitrary. A request that is answered with success has stored the valid value read and has told the node, all nodes above it and, for subtrees, all below it; one answered otherwise leaves value and change marks as they were; one left by an exception either leaves everything as it was or has stored the valid value with the marks written only down to a node that had never been marked before, so that where all nodes on the way were marked before it leaves everything as it was. Post never ends the program, and the others only if assignment may throw. Without failures the requests whose values are valid succeed. (That a request left by an exception never changes the value, that a changed value is always noticed by those who poll the node, and that requests never end the program are expected to fail.)", "quantifier": "all value types, moved-from and torn states, paths, mark tables, readers, validators and sets of failing steps", "why_tests_cant": "tests do not inject allocation failures, and the window between commit and notification is a few instructions wide", "anchors": ["include/kl/resource_op.hpp:394-457 rollback_value, pop_back_rollback", "include/kl/resource_op.hpp:717-845 delete_direct_child", "include/kl/resource_op.hpp:868-896 put", "include/kl/resource_op.hpp:919-945 post", "include/kl/resource_op.hpp:973-1002 patch", "include/kl/resource_op.hpp:1024-1072 del", "include/kl/resource.hpp:23-47 notify_changed", "include/kl/resource.hpp:89-103 assign"]}
{"id": "C173", "title": "bool in binary streams", "statement": "Values whose bools are false or true are read back as they were written, at any depth. For other input: reading is either what it would be with bytes in place of the bools, or undefined because a bool that is neither false nor true is moved. It is never undefined for types in which no bool is part of an element, key, mapped value, optional or alternative of a variant; for every other type there are bytes for which it is. Every bool in the values read is false or true if there is none in the type; for every type with one there are bytes that give another value, or for which reading is undefined. (That reading arbitrary bytes is always defined and gives proper values is expected to fail.)", "quantifier": "all types with any number of bools at any depth, all buffers, positions and previous values", "why_tests_cant": "the byte values 2 to 255 for a bool never come from the writer; the resulting behaviour is undefined and mostly looks harmless", "anchors": ["include/kl/binary_rw.hpp:68-70 is_simple", "include/kl/binary_rw.hpp:90-97 read_raw", "include/kl/binary_rw.hpp:119-126 read<T>", "include/kl/binary_rw/optional.hpp:17-25 read_binary", "include/kl/binary_rw/variant.hpp:11-32 visit_by_index", "include/kl/binary_rw/map.hpp:21-36 read_binary", "include/kl/binary_rw/set.hpp:19-35 read_binary", "include/kl/binary_rw/vector.hpp:51-71 decode_vector"]}
{"id": "C174", "title": "Objects as bytes", "statement": "bit_cast<To>(x) means what the bytes of x mean as a To, whether the result is copied or not; this is undefined exactly if a byte of a bool in To is neither 0 nor 1. Casting to another type of the same size and back gives every value again exactly if each byte of a number is part of a number there, each bool is part of a number or a bool there, and each bool there is a bool here. A trivially copyable object with any padding, written with write_raw or write_span, is read back and peeked as the same value. The bytes written are determined by the value exactly if the type has no padding; otherwise they include what the memory of the object holds there. (That casting there and back always gives the value again, and that equal values are written as equal bytes, is expected to fail.)", "quantifier": "all structures and arrays of numbers and bools at any depth, all values, any content of padding, copies made or elided, all buffers", "why_tests_cant": "the content of padding and the elision of copies depend on the compiler and on what the memory was used for before; the tests cast between float and uint32_t only", "anchors": ["include/kl/utility.hpp:19-33 bit_cast", "include/kl/binary_rw.hpp:78-88 peek", "include/kl/binary_rw.hpp:90-97 read_raw", "include/kl/binary_rw.hpp:99-107 read_span", "include/kl/binary_rw.hpp:207-217 write_raw", "include/kl/binary_rw.hpp:219-227 write_span"]}
{"id": "C175", "title": "Views and temporaries", "statement": "Programs that use range, stream_join, zipped and enumerated only on variables and parts of variables (or, for zipped, iota ranges) in what they keep never use an object that is gone, however views, loops and blocks are nested; what is printed in one expression is always safe. A loop is undefined exactly if what it goes over is not a part of a variable, a new object, a member of a new object or such a view. The use of a variable is undefined exactly if what it was made from refers to a temporary. The assertion in zipped excludes temporaries unless a function returns a reference to a part of one. (That every program that compiles is safe is expected to fail.)", "quantifier": "all programs of declarations, prints, loops and blocks, nested to any depth, over variables, temporaries, members, functions that return references, moved objects and views of any number of sequences", "why_tests_cant": "use of a dead temporary usually finds the old content; tests cannot run over all programs", "anchors": ["include/kl/range.hpp:37-50 range", "include/kl/stream_join.hpp:11 stream_joiner", "include/kl/stream_join.hpp:47-57 stream_join", "include/kl/zip.hpp:147-163 zipped_range", "include/kl/zip.hpp:202-222 zipped", "include/kl/zip.hpp:224-231 enumerated"]}
{"id": "C176", "title": "Every place can be named", "statement": "For every list of segments that are not empty and contain no slash there is a text that path::set parses to exactly that list, and for no other list. What joined returns for a parsed path is again a text for the same segments exactly if no segment contains a percent sign or is '.' or '..'. In a resource a struct member, map entry or element keyed by a string whose container can be addressed can itself be addressed by some request path exactly if its name is not empty and contains no slash. (That the joined text always names the same place, and that every element a post creates can be addressed, is expected to fail.)", "quantifier": "all lists of segments over any characters; all texts and prior path contents; all schemas, object values and places in them", "why_tests_cant": "tests use a few harmless names; existence of a text for every name, and absence of any text for a bad one, range over unboundedly many texts", "anchors": ["include/kl/path.hpp:95-139 path", "src/path.cpp:9-46 set", "src/path.cpp:75-107 push_decoded_segment", "include/kl/resource_op.hpp:505-638 visit_node", "include/kl/resource_op.hpp:919-972 post"]}
{"id": "C177", "title": "Enums without a fixed underlying type", "statement": "For an enum without a fixed underlying type the casts back to the enum in the operators |, &, ^ and >>, in for_each_enum and in enum_range stay among the values of the enum. ~ does so exactly if there is a negative enumerator or the values are all numbers of an unsigned type that is not promoted, ++ exactly if the next number is a value or in that same case, << exactly if the product is a value, max() of a closed range exactly if there is a value after the last. Reading a number into such an enum that is not reflected is defined for every document exactly if the enumerators use all bits of the underlying type. Reflecting different enumerators that are not negative compiles. (That ~ of flags, reading a number, and reflecting any enum are defined is expected to fail.)", "quantifier": "all lists of enumerators; all underlying types the compiler may choose; all values of the enum, shift counts and numbers in documents", "why_tests_cant": "tests use scoped enums, and a cast out of the range of values does not fail visibly; the claim ranges over every set of enumerators", "anchors": ["include/kl/enum_traits.hpp:11-18 for_each_enum", "include/kl/enum_traits.hpp:57-82 enum_traits", "include/kl/enum_traits.hpp:107-188 operators", "include/kl/enum_set.hpp:38-75 enum_set", "include/kl/enum_range.hpp:30-58 enum_range", "include/kl/enum_reflector.hpp:93-118 is_ordinary_enum", "include/kl/detail/serialization.hpp:1056-1061 deserialize_adl"]}
{"id": "C178", "title": "Paths and memory", "statement": "path::set asks for memory for its text at most once, in reserve, and not at all if the text is not longer than the string's capacity: no character appended afterwards needs memory. It asks for memory for segments exactly if the text passes through more segments than the small_vector has places for (15 in a new path). If every request is granted the result is the parsed path or the parse error. If one is refused, the path is left with the segments of a beginning of the text, everything that can be read of it is defined, and it can be set again. (That a refused request leaves the old path, or that joined then agrees with the segments, is expected to fail.)", "quantifier": "all texts, prior contents and capacities; all memories: any request may be refused or granted with any excess", "why_tests_cant": "allocation failures are not provoked by tests, and the bound of the text by the reserved size must hold for every mixture of escapes, dots and slashes", "anchors": ["src/path.cpp:8-46 set", "src/path.cpp:65-73 pop_segment", "src/path.cpp:75-107 push_decoded_segment", "include/kl/path.hpp:94-137 path"]}
{"id": "C179", "title": "A path set from its own text", "statement": "With strings that keep their buffer in clear, erase and reserve, path::set called with a view of the path's own text that does not begin at its first character has the result it has for a copy of that text. joined(k) and operator[](k) are such views for every k but 0. (That the same holds for k = 0, and so for set with any view of the path, is expected to fail.)", "quantifier": "all buffers, views that begin after the first character, and texts in them; all parsed paths and segment numbers", "why_tests_cant": "the text is overwritten while it is read; that the writes never overtake the reads must hold for every mixture of escapes, dots and slashes", "anchors": ["src/path.cpp:8-46 set", "src/path.cpp:48-52 clear", "src/path.cpp:65-73 pop_segment", "src/path.cpp:75-107 push_decoded_segment", "include/kl/path.hpp:117-127 operator[], joined"]}
{"id": "C180", "title": "Paths that were moved from", "statement": "Moving a path gives a path equal to the one moved from, and the one moved from can be set again with the result set has on any path. It is empty if its segments were on the heap or the vector's move clears them. If they were inside of the object and the move leaves them, it keeps its size, its first segment and all prefixes are empty, and reading any other segment throws out of a noexcept function. (That a path moved from can be read like any other path below its size is expected to fail.)", "quantifier": "all paths and texts parsed, segment numbers, prefix lengths, and both behaviours of the vector's move", "why_tests_cant": "what is left of a small_vector after a move depends on the library and on where the elements are", "anchors": ["include/kl/path.hpp:92-137 class path", "include/kl/path.hpp:21-26 path_segment_at", "include/kl/path.hpp:117-127 operator[], joined", "include/kl/path.hpp:54-62 path_view::prefix"]}
