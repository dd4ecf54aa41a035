{"id": "C01", "title": "Static text is inert markup", "statement": "Text handed to the library as a `&'static str` (as content, as an attribute value, or through `Data::/Value::from_unencoded_static_str`) is emitted in a form that contains no '<', '>' or '\"', and in which every '&' is the first character of one of the entities &lt; &gt; &amp; &quot;. Encoding never panics.", "quantifier": "every string of Unicode scalar values", "why_tests_cant": "There are infinitely many strings; a test can only try some, and the encoder has a copy-on-demand loop whose correctness depends on the positions of the special characters.", "anchors": ["src/text/encoded.rs: encode_char, encode_str_optional, EncodedText::from_unencoded_static_str", "src/text/data.rs", "src/text/value.rs", "src/content.rs: IntoStream for &'static str"]}
{"id": "C02", "title": "Encoding loses nothing", "statement": "Decoding the four entities in the emitted form of a static string gives back exactly the original string; hence two different static strings are never rendered alike. A string without special characters is stored unchanged.", "quantifier": "every string", "why_tests_cant": "Losslessness is an injectivity statement over an infinite domain.", "anchors": ["src/text/encoded.rs: encode_str_optional, encode_char"]}
{"id": "C03", "title": "Constructors documented as encoding do encode", "statement": "`Data::from_unencoded_str` and `Value::from_unencoded_str` ('Construct by encoding the provided value') emit the same text as their static counterparts for the same argument.", "quantifier": "every string", "why_tests_cant": "A test with a harmless argument passes; the claim is about all arguments (it is false of the code: the runtime-string constructor does not encode).", "anchors": ["src/text/encoded.rs: EncodedText::from_unencoded_str", "src/text/data.rs: Data::from_unencoded_str", "src/text/value.rs: Value::from_unencoded_str"]}
{"id": "C04", "title": "Identifier validation is exact", "statement": "Constructing an identifier succeeds exactly when the text is non-empty, ASCII, free of whitespace and free of the forbidden characters = \" / > < & , ; . Otherwise the reported reason is true of the text and the reported character is the first offending one.", "quantifier": "every string", "why_tests_cant": "Exact characterisation over all strings, including the precedence of the reasons.", "anchors": ["src/text/identifier.rs: validate, Identifier::from_str, IdentifierError"]}
{"id": "C05", "title": "Identifier equality is ASCII-case-insensitive equality", "statement": "On valid identifiers `==` is reflexive, symmetric and transitive, ignores ASCII case and nothing else, and agrees with equality of the lower-cased texts.", "quantifier": "every pair/triple of identifiers", "why_tests_cant": "Equivalence laws quantify over all pairs and triples.", "anchors": ["src/text/identifier.rs: identifier_eq, PartialEq for Identifier"]}
{"id": "C06", "title": "Parsing always terminates without panicking", "statement": "`Template::from_str` returns Ok or Err on every input and every combination of limits; none of its `expect` calls can fire and no loop runs forever.", "quantifier": "every input string and every parse option", "why_tests_cant": "Termination and absence of panics over an infinite input space.", "anchors": ["src/parse.rs: Iter::next, parse, parse_raw_data, try_parse_comment, parse_attributes", "src/template.rs: Template::from_str"]}
{"id": "C07", "title": "A parsed template is a well-nested forest", "statement": "If parsing succeeds, the events are those of a forest: every opening tag has exactly one closing tag with the same (case-insensitive) name, properly nested, and no other closing tags occur.", "quantifier": "every input string accepted by the parser", "why_tests_cant": "Nesting is unbounded; a test only sees particular documents.", "anchors": ["src/parse.rs: Iter::next", "src/template.rs: Template::from_str"]}
{"id": "C08", "title": "The stack limit bounds nesting depth exactly", "statement": "With `max_stack_depth = d` the parser accepts exactly the inputs that the unlimited parser accepts and whose nesting depth is at most d, with the same result; the depth-exceeded error occurs only if the input really opens a (d+1)-th element.", "quantifier": "every input and every limit d", "why_tests_cant": "Quantifies over every document and every limit, including off-by-one cases at each limit.", "anchors": ["src/parse.rs: Iter::next, Options", "src/template.rs: Template::from_str"]}
{"id": "C09", "title": "The input length limit is exact", "statement": "With `max_input_len = n`, an input of more than n bytes gives the length-limit error carrying n; an input of at most n bytes behaves as if there were no length limit. Length is measured in UTF-8 bytes.", "quantifier": "every input and every limit n", "why_tests_cant": "All inputs, all limits, multi-byte characters included.", "anchors": ["src/template.rs: Template::from_str", "src/parse.rs: Options"]}
{"id": "C10", "title": "Parsing loses and invents no text", "statement": "If parsing succeeds, the input is the concatenation of one slice per event, in order, and each slice spells its event: data and raw data are the slice verbatim, a comment is the text between <!-- and -->, tags carry exactly the name and attributes spelt in the slice (up to whitespace around them).", "quantifier": "every accepted input", "why_tests_cant": "Coverage of every byte of every input cannot be sampled.", "anchors": ["src/parse.rs: try_parse_data, try_parse_comment, try_parse_doctype, try_parse_tag_open, try_parse_tag_close, try_parse_attribute, parse_raw_data", "src/input.rs"]}
{"id": "C11", "title": "Rendering then parsing is the identity on parsed templates", "statement": "If parsing s gives template t and no tag name in t starts with '!', then parsing the rendered text of t (same options, no length limit) gives t again; in particular rendering is stable after one round trip. Without the proviso the claim is false ('< !--x />').", "quantifier": "every accepted input", "why_tests_cant": "Round-trip statement over all documents; the failing corner is not reached by ordinary examples.", "anchors": ["src/event.rs: Display for Event, Attributes, Attribute", "src/parse.rs", "src/template.rs: Display, from_str"]}
{"id": "C12", "title": "Raw-text elements are opaque", "statement": "The contents of script, style, title and textarea are returned as one raw-data event equal to the source text up to the first position where a closing tag for that element parses; nothing inside is treated as markup.", "quantifier": "every accepted input and every raw-text element in it", "why_tests_cant": "The contents are arbitrary text containing arbitrary pseudo-markup.", "anchors": ["src/parse.rs: parse_raw_data, mode_for_tag, Iter::next", "src/input.rs: take_until_end_char"]}
{"id": "C13", "title": "Void elements never open a scope", "statement": "The parser reports a tag as void exactly if its name is one of the 16 void names (any case), with or without a trailing slash, never reports such a tag as opening or self-closed, and a non-void tag with trailing slash is reported self-closed.", "quantifier": "every accepted input", "why_tests_cant": "All spellings and all surrounding documents.", "anchors": ["src/parse.rs: is_void_tag, try_parse_tag_open"]}
{"id": "C14", "title": "Parse errors are true of the input", "statement": "Every parse error describes a defect that is really present at the place it names: the input splits at each reported location into a consumed prefix and a rest that starts with the offending construct, and the variant's condition (unclosed comment, unsupported doctype, invalid tag/attribute/identifier, unexpected or mismatched closing tag, missing closing tags) holds there. Conversely, the defects are reported exactly: whenever the input up to some point is a readable prefix and the rest begins with such a defect, parsing fails with precisely that error, and an input has at most one such defect.", "quantifier": "every rejected input", "why_tests_cant": "All malformed inputs.", "anchors": ["src/parse.rs: Error, try_parse_*, Iter::next"]}
{"id": "C15", "title": "Locations are line/column/byte-offset of a prefix", "statement": "A reported location equals (1 + number of newlines, 1 + characters since the last newline, number of UTF-8 bytes) of the text consumed before it, independently of how that text was consumed piecewise.", "quantifier": "every string and every way of splitting it into consumed pieces", "why_tests_cant": "All strings and all splittings.", "anchors": ["src/location.rs: with_consumed, at_start", "src/input.rs: consumed, advanced"]}
{"id": "C16", "title": "Transformations terminate, never panic and never fail internally", "statement": "Running any pipeline of API calls on any template obtained from the library terminates; no shared source is ever borrowed twice; and with library selectors no internal-consistency error (expected open/close, unexpected close, missing close) is ever reported.", "quantifier": "every obtainable template, every well-typed pipeline including nested builders", "why_tests_cant": "Quantifies over all programs written against the API and all templates; the streams share one mutable source through Rc<RefCell>.", "anchors": ["src/modifier/mod.rs", "src/modifier/select/*.rs", "src/event.rs: StreamError", "src/template.rs: Template::transform"]}
{"id": "C17", "title": "Every template reachable through the API is well nested", "statement": "Starting from parsing or element construction and applying any sequence of transformations (feeding results into each other as content), every template obtained is a forest of matching tags without internal no-op events.", "quantifier": "every history of API calls", "why_tests_cant": "An invariant over all histories.", "anchors": ["src/template.rs: Template::from_str, with_element, with_transformed_element, transform, from_stream"]}
{"id": "C18", "title": "Transforming nothing changes nothing", "statement": "The identity pipeline, and any selection none of whose elements match, and any selection whose builder returns its element unchanged, give back exactly the same template.", "quantifier": "every obtainable template, every selector", "why_tests_cant": "All templates and selectors.", "anchors": ["src/template.rs: Template::transform, from_stream", "src/modifier/select/mod.rs: Select, SelectOnce", "src/modifier/select/element.rs: SingleElement"]}
{"id": "C19", "title": "`select` rewrites exactly the outermost matching elements", "statement": "`select(sel, b)` replaces each matching element that is not inside another matching element, at any depth, by what b produces for that element on its own; everything else is unchanged and in place; matches inside a selected element and inside b's output are not selected.", "quantifier": "every obtainable template, selector and builder", "why_tests_cant": "All trees, all selectors and all builders.", "anchors": ["src/transform.rs: Api::select", "src/modifier/select/select_any.rs", "src/modifier/select/mod.rs: Select", "src/modifier/select/element.rs: SingleElement"]}
{"id": "C20", "title": "`select_once` rewrites exactly the first match in document order", "statement": "`select_once(sel, b)` rewrites the first matching element in document order and nothing else.", "quantifier": "every obtainable template, selector and builder", "why_tests_cant": "All trees, all selectors and all builders.", "anchors": ["src/transform.rs: Api::select_once", "src/modifier/select/select_any.rs", "src/modifier/select/mod.rs: SelectOnce"]}
{"id": "C21", "title": "Direct selection sees only the top level", "statement": "`select_direct` rewrites every matching top-level element and never a nested one; `select_direct_once` rewrites only the first of them.", "quantifier": "every obtainable template, selector and builder", "why_tests_cant": "All trees, all selectors and all builders.", "anchors": ["src/transform.rs: Api::select_direct, Api::select_direct_once", "src/modifier/select/select_direct.rs", "src/modifier/select/select_direct.rs", "src/modifier/select/mod.rs: DirectOnly"]}
{"id": "C22", "title": "remove/replace/append/prepend act on the whole selection", "statement": "`remove` yields nothing, `replace(c)` yields exactly c, `append(c)` yields the selection followed by c, `prepend(c)` yields c followed by the selection.", "quantifier": "every obtainable template or selected element and every content", "why_tests_cant": "All selections and contents.", "anchors": ["src/modifier/remove.rs", "src/modifier/replace.rs", "src/modifier/append.rs", "src/modifier/prepend.rs", "src/transform.rs"]}
{"id": "C23", "title": "The *_contents operations act between the tags and nowhere else", "statement": "remove_/replace_/append_/prepend_contents change exactly the children of the element; tag names and attributes stay; a self-closed element is expanded to an opening and closing tag; a void element is left untouched.", "quantifier": "every element and every content", "why_tests_cant": "All elements and contents.", "anchors": ["src/modifier/select/select_contents.rs", "src/modifier/mod.rs: Expand", "src/transform.rs: Api::remove_contents, replace_contents, append_contents, prepend_contents"]}
{"id": "C24", "title": "subselection works on descendants only", "statement": "subselect_contents(b) applies b to the children; subselect, subselect_once, subselect_direct and subselect_direct_once behave like the corresponding select on the children and never touch the element itself.", "quantifier": "every element, selector and builder", "why_tests_cant": "All trees, selectors and builders.", "anchors": ["src/modifier/select/subselect_any.rs", "src/modifier/select/subselect_any.rs", "src/modifier/select/subselect_direct.rs", "src/modifier/select/subselect_direct.rs", "src/transform.rs"]}
{"id": "C25", "title": "repeat emits one transformed copy per item, in order", "statement": "repeat(items, b) yields the concatenation, in item order, of b applied to a fresh copy of the selection for each item; with no items it yields nothing; repeat_or_else uses the fallback on the selection exactly if there is no item; repeat_contents and repeat_contents_or_else do the same to the children (the fallback gets the whole element).", "quantifier": "every selection, every finite item sequence and every builder", "why_tests_cant": "All list lengths and builders.", "anchors": ["src/modifier/repeat.rs", "src/transform.rs: Api::repeat, repeat_or_else, repeat_contents, repeat_contents_or_else"]}
{"id": "C26", "title": "Attribute operations change exactly the named attribute", "statement": "add appends one attribute; set leaves exactly one attribute of that name, last, with the new value; remove leaves none; replace_value_if_exists sets it only if present; add_to extends the first occurrence's value with the separator or creates it. Names compare case-insensitively and all attributes of other names keep value and relative order.", "quantifier": "every attribute list (including duplicates and value-less attributes), name and value", "why_tests_cant": "All attribute lists, with duplicates and mixed case.", "anchors": ["src/event.rs: Attributes::add_attribute, set_attribute, remove_attribute, replace_attribute, add_to_attribute", "src/transform.rs"]}
{"id": "C27", "title": "Class and id operations do what their name says", "statement": "After add_class(c) the element has class c and still has every class it had; after remove_class(c) it does not have c and still has every other class; set_id(i) makes the element match id i, remove_id makes it match no id; attributes other than class/id are untouched.", "quantifier": "every attribute list and every class/id identifier", "why_tests_cant": "All attribute lists, whitespace layouts and identifiers.", "anchors": ["src/event.rs: Attributes::has_class, remove_class, add_to_attribute, has_id; Attribute::classes, has_class, remove_class", "src/transform.rs: add_class, remove_class, set_id, remove_id"]}
{"id": "C28", "title": "Attribute operations leave contents alone", "statement": "An attribute operation on an element changes only the attributes of its start tag: name, kind of tag, every descendant and the closing tag are unchanged.", "quantifier": "every element and attribute operation", "why_tests_cant": "All elements.", "anchors": ["src/modifier/attribute.rs: attribute_step"]}
{"id": "C29", "title": "Errors surface and are never invented", "statement": "A pipeline with an invalid selector, identifier or failing content at top level always fails; conversely every reported error is one of the errors supplied through such arguments; if a transform fails no template is produced.", "quantifier": "every obtainable template and well-typed pipeline", "why_tests_cant": "All pipelines.", "anchors": ["src/modifier/mod.rs: Fallible, State::step", "src/transform.rs", "src/template.rs: Template::transform"]}
{"id": "C30", "title": "Streaming is unobservable: chaining equals composing transforms", "statement": "If transforming by p succeeds, then running p followed by q in one lazy pipeline gives the same result (template or error) as running p to completion and then q on its result.", "quantifier": "every obtainable template and all pipelines p, q", "why_tests_cant": "All pairs of pipelines.", "anchors": ["src/transform.rs: Api", "src/template.rs: Template::transform", "src/modifier/*"]}
{"id": "C31", "title": "Conditional application selects exactly one branch", "statement": "apply runs its builder; apply_if runs it exactly if the predicate holds; apply_if_else, apply_with_option and apply_with_result run exactly the branch selected by their argument, with its payload; boxing changes nothing.", "quantifier": "every stream, predicate/option/result and builders", "why_tests_cant": "All builders and payloads.", "anchors": ["src/modifier/apply.rs: ApplyEither", "src/transform.rs: apply, apply_if, apply_if_else, apply_with_option, apply_with_result, into_boxed"]}
{"id": "C32", "title": "apply_as_template passes exactly the current selection", "statement": "apply_as_template(f) calls f once on the template consisting of the current selection and yields exactly what f returns, or f's error.", "quantifier": "every selection and every function f", "why_tests_cant": "All selections and functions.", "anchors": ["src/modifier/apply.rs: TemplateApply", "src/transform.rs: apply_as_template"]}
{"id": "C33", "title": "Selector strings parse to what they say", "statement": "A static selector string is split as [tag][#id][.class]* : the text before the first '.' is split at its first '#', all remaining parts are separated by '.'; it is accepted exactly if every present part is a valid identifier; and the error names an offending part. The empty string is rejected as an unrestricted selector.", "quantifier": "every string", "why_tests_cant": "All strings.", "anchors": ["src/select.rs: IntoSelector for &'static str, Static, Classes::from_str_iterator"]}
{"id": "C34", "title": "A selector matches exactly the described elements", "statement": "A parsed selector matches an event exactly if it is a start of an element (opening, self-closed or void), its tag equals the tag part, some id attribute equals the id part and every class part is among the whitespace-separated words of its class attributes (case-insensitively); the typed selectors Tag, Id, Class, Classes match the corresponding single condition.", "quantifier": "every event and every selector", "why_tests_cant": "All events and selectors.", "anchors": ["src/select.rs: Selector impls", "src/event.rs: EventKind::has_id, has_class, is_tag"]}
{"id": "C35", "title": "Loading from a file equals parsing its contents, for every read schedule", "statement": "If from_file succeeds the result equals from_str on the file's text, no matter how reads split the bytes; for a valid UTF-8 file without I/O errors it succeeds whenever from_str does. (The second half is false: a multi-byte character straddling two reads gives a decoding error; it holds if no read splits a character.)", "quantifier": "every byte sequence, every way reads split it, every buffer size", "why_tests_cant": "The schedule of short reads is chosen by the operating system; tests see one schedule.", "anchors": ["src/template.rs: Template::from_file"]}
{"id": "C36", "title": "Template equality is an equivalence compatible with rendering", "statement": "Template equality is an equivalence; equal templates render equally up to ASCII case of names. (Templates that render identically need not be equal: static and owned text compare different.)", "quantifier": "every pair/triple of templates", "why_tests_cant": "All pairs and triples.", "anchors": ["src/event.rs: derive(PartialEq)", "src/text/deferred.rs", "src/text/identifier.rs: PartialEq"]}
{"id": "C37", "title": "Integers render as decimal numerals", "statement": "An integer used as content renders as its decimal numeral, which reads back as the same number and contains no markup.", "quantifier": "every integer of the supported types", "why_tests_cant": "All 64-bit values.", "anchors": ["src/content.rs: impl_octal / IntoStream for integers"]}
{"id": "C38", "title": "Element construction", "statement": "Template::with_element(tag) yields a single void element if the tag is a void name and a single self-closed element otherwise, with no attributes; with_transformed_element(tag, b) equals b applied to exactly that element; an invalid tag name is reported as an error.", "quantifier": "every identifier string and builder", "why_tests_cant": "All names and builders.", "anchors": ["src/template.rs: Template::with_element, with_transformed_element"]}
{"id": "C39", "title": "Builders run once per selected element, in document order", "statement": "A (stateful) builder passed to select is invoked exactly once for each selected element, in document order, and its k-th invocation determines the rewriting of the k-th selected element; a select_once builder is invoked at most once.", "quantifier": "every obtainable template, selector and stateful builder", "why_tests_cant": "All trees and all stateful closures.", "anchors": ["src/modifier/select/mod.rs: Select, SelectOnce", "src/transform.rs: Build, BuildOnce"]}
{"id": "C40", "title": "Error messages name the right tags", "statement": "The message of a mismatched-closing-tag error names the closing tag and its location as the closing tag and the opening tag and its location as the opening tag; the message for an invalid closing tag speaks of a closing tag.", "quantifier": "every such error", "why_tests_cant": "All names and locations. (False of the code: the two are swapped / the wrong word is used.)", "anchors": ["src/parse.rs: Display for Error"]}
{"id": "C41", "title": "Inserting static text cannot change document structure", "statement": "If static text is inserted (as contents, sibling or attribute value) into a template that was parsed from text, then the rendered output parses again, and to the same structure with the inserted text as data.", "quantifier": "every parsed template, every static string and insertion position", "why_tests_cant": "All strings and all positions: the absence of markup injection.", "anchors": ["src/text/encoded.rs", "src/event.rs: Display", "src/parse.rs", "src/transform.rs"]}
{"id": "C42", "title": "Errors for unfinished tags point at the tag", "statement": "As documented, the location carried by ExpectedOpeningTagClose and ExpectedClosingTagClose is the location where the tag was started. (False of the code: it is the place where '>' was expected, and never the start of the tag.)", "quantifier": "every rejected input with one of these errors", "why_tests_cant": "The refutation is one input, but that the location is never the start of the tag quantifies over all inputs.", "anchors": ["src/parse.rs:101-114 (documentation)", "src/parse.rs: try_parse_tag_open, try_parse_tag_close"]}
{"id": "C43", "title": "Cause chains end", "statement": "Following Error::cause from any error value of the library ends after at most four steps, so error reporters that walk the chain terminate, having written at most five messages, and always the same.", "quantifier": "every error value", "why_tests_cant": "All nestings of the eight error types.", "anchors": ["src/event.rs: Error for StreamError", "src/template.rs: Error for InputError, FileError", "src/parse.rs: Error for Error", "src/select.rs"]}
{"id": "C44", "title": "Rendered templates can be read back", "statement": "Every template obtained through the public API from parsed templates, built elements and transformations renders to text that Template::from_str accepts and reads with the same structure. False in general (repeating the contents of a script element, identifiers with an apostrophe, an element called !--); it holds when attribute and element names contain no parser delimiter, values no double quote, text inserted into raw text elements no markup, and contents of raw text elements are not repeated.", "quantifier": "every template, every pipeline of API calls and its arguments", "why_tests_cant": "The space of templates and pipelines is infinite, and the three exceptions are corner cases of the interplay between transformations, rendering and parsing.", "anchors": ["src/transform.rs", "src/template.rs: Display, with_element", "src/event.rs: Display", "src/parse.rs", "src/text/identifier.rs"]}
{"id": "C45", "title": "Transformations return, whatever they are given", "statement": "Running any sequence of API calls on any list of events returns a result after finitely many steps, always the same one, and never panics: not if the events are not nested, if a content stream breaks off inside an element or produces stray tags, if functions given to apply_as_template return anything, if custom selectors match anything, and not even for calls the type checker would reject.", "quantifier": "every event list, every sequence of calls, every argument", "why_tests_cant": "All malformed inputs and all programs; streams share mutable sources, are cut anywhere and may be asked again after their end.", "anchors": ["src/modifier/mod.rs", "src/modifier/select/*.rs", "src/modifier/select/select_contents.rs", "src/event.rs: Stream", "src/content.rs: IntoStream for S: Stream", "src/transform.rs"]}
{"id": "C46", "title": "Messages tell errors apart", "statement": "Two texts rejected by the parser get the same message exactly if the errors are of the same kind, at the same line, column and byte offset, and name the same tags; exceptions are only that invalid opening and closing tag names are confused, that tag and attribute name are joined by a dot, that the reason why a name is invalid is left to the cause, and that of further unclosed tags only the names are told. Messages about identifiers, input, files, streams, selectors and malformed event streams determine the kind of error and the limit, path, index, character, tag and event kind they mention. (A stream error about an invalid element name says it is about an attribute.)", "quantifier": "every pair of rejected texts, every error value", "why_tests_cant": "All pairs of inputs; names and texts of any length could imitate other parts of a message.", "anchors": ["src/parse.rs: Display for Error", "src/location.rs: Display", "src/text/identifier.rs: Display for IdentifierError", "src/event.rs: Display for StreamError, MalformedReason, Event::description", "src/template.rs: Display for InputError, FileError", "src/select.rs: Display for Error, ClassesError, StaticError"]}
{"id": "C47", "title": "Limits only limit", "statement": "Each limit of the options is what the last setter call about it said. A text is accepted under some options exactly if it is accepted under the default options, with the same events, and nests no deeper and is no longer than the limits allow. Under the default options no error is about a limit. Loosening limits keeps accepted texts accepted with the same events and keeps every error that is not about a limit.", "quantifier": "every text, every sequence of setter calls, every pair of options", "why_tests_cant": "All texts, limits and pairs of limits; the limit is checked in the middle of parsing and could change what is reported.", "anchors": ["src/parse.rs: Options, EventIterator::next", "src/template.rs: Template::from_str"]}
{"id": "C48", "title": "Errors that more text cannot remove", "statement": "If a text is rejected, then so is every continuation of it, with the identical error, exactly if the error is not about the end of the text. Errors about the end are: something unclosed, something expected but the text ends, an invalid name that goes up to the end (unless it has a character that is not ASCII), and an invalid tag name which could still become a doctype.", "quantifier": "every rejected text, every continuation", "why_tests_cant": "All continuations of all texts; what has been read could be read differently when more follows.", "anchors": ["src/parse.rs: EventIterator, parse_data, try_parse_*", "src/input.rs: Input::take_word, take_until_str"]}
{"id": "C49", "title": "Concatenation of texts", "statement": "If two texts are accepted, then so is their concatenation (if it is within the length limit); its events are those of both, where text at the end of the first and at the beginning of the second becomes one; its rendering is both renderings. If the second is rejected, the concatenation is rejected with the same error, where each location is moved by the location of the end of the first.", "quantifier": "every pair of texts", "why_tests_cant": "All pairs of texts; state could leak from one part of a document to the next, and locations depend on everything before.", "anchors": ["src/parse.rs: EventIterator", "src/location.rs: Location::with_consumed", "src/input.rs"]}
{"id": "C50", "title": "Builders that agree can be exchanged", "statement": "If two builders succeed on the same selections with the same results, then exchanging occurrences of one for the other anywhere in a program - at the top, in builders given to select, repeat, apply and the calls on contents, at any depth - does not change on which inputs the program succeeds nor its results there. (Which of several errors is reported can change, even if the builders alone always report the same error.)", "quantifier": "every pair of builders, every program around them, every input", "why_tests_cant": "All programs and all inputs; streams are lazy, share cells and pass on partial results, so a builder could be observed otherwise than by its result.", "anchors": ["src/transform.rs", "src/select.rs", "src/modifier"]}
{"id": "C51", "title": "Laws of the content calls", "statement": "What a builder without failing arguments did to a selection is irrelevant if it is then removed or replaced. replace is remove followed by append or prepend. prepend and append commute. Two appends, or two prepends, are one with the concatenated content. repeat with one item is the builder, with none remove. Two calls on contents are one call doing both, and each *_contents call is subselect_contents of the plain call. The equations hold for results and errors.", "quantifier": "every selection, every content, every builder", "why_tests_cant": "All templates and all contents, including failing ones: the order in which errors surface has to agree.", "anchors": ["src/transform.rs: remove, replace, append, prepend, repeat, *_contents", "src/modifier"]}
{"id": "C52", "title": "Laws of the attribute calls", "statement": "Attribute calls commute with the calls on contents, also in which error they report. set_attribute and remove_attribute make all earlier attribute, class and id calls on the same name (up to case) superfluous. remove_attribute followed by add_attribute is set_attribute. remove_attribute commutes with every attribute, class and id call on another name. (Setting two different attributes does not commute: the order of writing differs.)", "quantifier": "every element, every attribute call, every pair of names", "why_tests_cant": "All elements with all lists of attributes, duplicates and names in different case included.", "anchors": ["src/transform.rs: *_attribute, *_class, *_id", "src/event.rs: Attributes", "src/modifier/attribute.rs"]}
{"id": "C53", "title": "Selections without effect", "statement": "Selecting elements, all or the first, anywhere or at the top level, and doing nothing to them leaves every template as it is. After all matching elements are removed, selecting with the same selector finds nothing: the second selection has no effect whatever its builder.", "quantifier": "every template, every selector for elements, every builder", "why_tests_cant": "All templates, selectors and builders; elements of the same name nest, and removal changes what is at the top level.", "anchors": ["src/transform.rs: select, select_once, select_direct, select_direct_once", "src/modifier/select"]}
{"id": "C54", "title": "Rendered templates mean the same to readers of HTML", "statement": "The tokenizer of the HTML standard (an independent specification: a state machine with tag, attribute, comment, doctype, RCDATA, RAWTEXT and script states, including escaped scripts) reads the rendering of a template as exactly the tokens its events stand for: names in lower case, the first of several attributes with one name, text character by character. This holds if names of elements begin with a letter and no text has U+0000 (carriage returns are normalized), elements which contain only text for HTML contain only text that does not end them, tags closing themselves are not of such elements, and comments contain nothing that ends them in HTML. Without each of these conditions it is refuted: the library accepts and writes the text unchanged, but a reader of HTML sees something else.", "quantifier": "every template of unbounded size, for readers with and without scripting", "why_tests_cant": "All templates and all texts in them; the tokenizer has 44 states and looks at unbounded text.", "anchors": ["src/event.rs: Display", "src/template.rs: Display", "src/parse.rs"]}
{"id": "C55", "title": "Transformations keep the meaning of templates for readers of HTML", "statement": "If a template is safe for readers of HTML, and every call of a pipeline has safe arguments (literals and numbers always are), the result is safe again and is read by an HTML tokenizer as its events say; also if contents of scripts are repeated or text is added to them. For that the text of scripts must not end with a beginning of what would end it: otherwise a space added to a script ends it (refuted).", "quantifier": "every template, every pipeline, every error-free run, with and without scripting", "why_tests_cant": "All pipelines over all templates; injection through combinations of calls is exactly what example tests miss.", "anchors": ["src/transform.rs", "src/event.rs: Display", "src/text/encoded.rs"]}
{"id": "C56", "title": "The parser reads texts as readers of HTML do", "statement": "For every text that the parser accepts: if its tags are written tidily (no white space after \"<\", \"</\" and \"<!\", only white space that separates in HTML between the parts of a tag, no white space at the start of a value), and its events have the same meaning for both (the conditions of C54, newlines normalized), then the tokenizer of the HTML standard reads from the text exactly the tokens that belong to the parsed events, except for the flag that says whether a start tag ended with a slash; and it reads the same from the rendered template. For texts with tags that are not tidy this is refuted, for each of the conditions.", "quantifier": "every text, every division of it into slices for the events, every option, with and without scripting", "why_tests_cant": "All ways to write tags: upper and lower case, white space anywhere, attributes without space between them, carriage returns.", "anchors": ["src/parse.rs: try_parse_tag_open, try_parse_attribute, try_parse_doctype, try_parse_tag_close", "src/event.rs: Display"]}
{"id": "C57", "title": "Reports tell errors apart", "statement": "The report of an error - its message and those of its causes - is the same for two errors of the library exactly if they are equal up to a short list: whether an invalid tag name is in an opening or a closing tag, where the dot between tag and attribute name is, where unclosed tags other than the innermost are, the contents of the event found in place of a tag, the errors of the standard library as far as it writes them alike, and that the errors of Id, Tag and Class read like those they are converted to. Converting an error to a stream error keeps its report as the end of the new one. Error::description tells the type of every error. (False for the last: StaticError describes itself as ClassesError.)", "quantifier": "all pairs of error values the library can make, and whatever the standard library writes for its errors", "why_tests_cant": "All nestings of the error types and all names, locations and limits in them.", "anchors": ["src/event.rs: Display and Error for StreamError, AssertionError, MalformedReason, From impls", "src/select.rs: Display, Error and From impls of the error types", "src/template.rs: InputError, FileError", "src/parse.rs: Error", "src/text/identifier.rs: IdentifierError"]}
{"id": "C58", "title": "The depth of calls does not depend on the document", "statement": "The number of function calls inside each other during a transformation is bounded by a constant of the program (12 for each call in it, counting builders inside builders, plus 3), for every document: neither its length nor its depth, nor the number of elements selected, nor what selectors and functions do, make the call stack grow. Counting this way does not change any result.", "quantifier": "every program whose builders are bounded in depth, every list of events, also of broken nesting", "why_tests_cant": "A stack overflow needs documents larger than any test, and a bound for all of them cannot be seen from runs.", "anchors": ["src/event.rs: next_event_skip_noop", "src/modifier/remove.rs", "src/modifier/select/mod.rs", "src/modifier/mod.rs", "src/template.rs: from_stream"]}
{"id": "C59", "title": "Readers of HTML see literal text as it is", "statement": "A program that reads HTML as its standard says, including character references, sees the rendering of a template as its events say with the references replaced, under the conditions of C54. An encoded literal is seen as the literal, in texts and in attribute values, whatever characters it contains (except U+0000 and carriage returns). If no text of the template ends within a reference, this stays true event by event after every pipeline that inserts literals and numbers, or other text that does not end within a reference. Tidily written texts are read by such a program as the library reads them. Refuted without the conditions: a literal inserted after a text ending within a reference can complete it; in scripts literals are seen in encoded form.", "quantifier": "every literal, every list of events and pipeline meeting the conditions, every text parsed, readers with and without scripting", "why_tests_cant": "Literals can contain any text that looks like one of 2231 named references, with and without semicolon, or be put next to any other text; a test sees one browser and a few strings.", "anchors": ["src/text/encoded.rs: from_unencoded_static_str", "src/event.rs: Display", "src/content.rs"]}
{"id": "C60", "title": "Transformations invent nothing", "statement": "Every event of the result of a pipeline comes from an event of the template, of a template given as content, or of one returned by a function: it is that event, or the same tag with changes only to attributes that a call of the pipeline names, or the start or end tag of an element that closed itself and now has contents. Texts, comments and document types are never changed.", "quantifier": "every well-nested template, every pipeline with well-nested arguments and selectors of elements, every result", "why_tests_cant": "An event that was copied, cut or merged wrongly would only show for the templates and nestings of calls that a test happens to contain.", "anchors": ["src/modifier", "src/transform.rs", "src/template.rs: transform"]}
{"id": "C61", "title": "Messages have the documented wording", "statement": "The message of every error is a format string with its holes filled: names as they are, line, column and byte offset as decimal numbers without leading zeros, the unclosed tags in quotes separated by commas, characters in the escaped form (backslash letters, or the code in lower-case hexadecimal digits). No other text is the message of that error, and two characters never have the same escaped form.", "quantifier": "every error of every type, every name, location, number and character in it", "why_tests_cant": "Messages contain unbounded numbers, characters and lists of tags; tests compare a few of them.", "anchors": ["src/parse.rs: Display for ParseError", "src/text/identifier.rs: Display for IdentifierError", "src/event.rs: Display for MalformedReason", "src/select.rs: Display", "src/template.rs: Display", "src/input.rs: Display for Location"]}
{"id": "C62", "title": "Parsing takes linear time, except for brackets in raw text", "statement": "Parsing a text takes a number of steps (characters looked at, copied or counted, and calls) at most linear in the length of the text if it has no script, style, title or textarea, and at most quadratic in any case, whether it is accepted or not. For an accepted text the excess over a linear bound is at most three times the sum, over its raw texts, of the number of characters < times the length. The claim that every text takes linear time is false: each < in a raw text makes the parser count all characters of the raw text before it three times.", "quantifier": "every text, every setting of the limits; the refutation for every constant factor", "why_tests_cant": "Tests measure a few texts; that no text takes longer, and that no constant factor suffices, are statements about all lengths.", "anchors": ["src/input.rs: take_until_end_char, advanced, consumed", "src/location.rs: with_consumed", "src/parse.rs: parse_raw_data, parse_data_mode, Iter::next", "src/template.rs: Template::from_str"]}
{"id": "C63", "title": "Transformations take time linear in the document", "statement": "Running a program takes a number of steps (calls of next_event, iterations of loops, calls made by builders) at most linear in the number of events of the template, with one factor for all programs of the same size (number of calls, of items, of events of contents, depth of builders), whatever the selectors, contents and functions are, whether the result is a template or an error. So the result is at most linearly longer than the template. The factor is exponential in the size of the program. The claim without a bound for the sizes of the builders is false: a builder repeating as often as it was called before takes quadratic time.", "quantifier": "every size, every program of that size, every list of events, nested or not; the refutation for every factor", "why_tests_cant": "Peeked, buffered and shared streams could read or skip the same events again and again for some nesting of calls; tests measure a few documents and programs.", "anchors": ["src/transform.rs", "src/event.rs", "src/modifier", "src/template.rs: Template::from_stream, transform"]}
{"id": "C64", "title": "Laws of selections", "statement": "select_once is select with a builder that does nothing from the second element on. Two selections with one selector are one selection doing both, for results, if the first returns elements that still match, which tag selectors guarantee for every builder that returns an element; for errors too if the first does not fail. Two selections, anywhere or on the top level, commute if no match of one is or contains a match of the other and neither makes matches for the other; for errors too if one of them has no failing argument. Without the conditions both laws are false.", "quantifier": "every template, every pair of selectors for elements and of builders meeting the conditions, numbered calls of builders included", "why_tests_cant": "All templates, selectors and builders; elements nest arbitrarily, builders get the number of the call and selections are run lazily, one pulling from the other.", "anchors": ["src/transform.rs: select, select_once, select_direct, select_direct_once", "src/modifier/select"]}
{"id": "C65", "title": "Calls on an element keep the element", "statement": "Whatever calls are made on an element, as long as the builder's type remains that of an element: if they succeed, the result is exactly one element, of the same name, and void exactly if it was. Calls about attributes succeed, leave the children alone, and do not change whether a selector matches unless they are about the attribute it looks at.", "quantifier": "every element, every chain of calls from elements to elements, every selector of the library", "why_tests_cant": "Chains of calls, the contents given to them and the builders inside them are unbounded.", "anchors": ["src/transform.rs: Api<S> where S: ElementStream", "src/event.rs: Attributes", "src/select.rs"]}
{"id": "C66", "title": "Documents can be transformed piece by piece", "statement": "A program of selections and removals whose builders treat all matches alike transforms two templates in a row into the two results in a row, or fails with the first error; so the result for a document is made of the results for its pieces. A program of selections on every level whose selectors do not match an element transforms this element by transforming its children as if they were the document. With builders that count their calls the first does not hold.", "quantifier": "all templates, all programs of such calls, all arguments and builders", "why_tests_cant": "Documents, programs and builders are unbounded; tests see single splits of single documents.", "anchors": ["src/transform.rs: Api::select, select_direct", "src/modifier/select/select_any.rs", "src/modifier/select/select_direct.rs", "src/modifier/select/element.rs", "src/modifier/remove.rs"]}
{"id": "C67", "title": "Closures with state", "statement": "If the closures, iterators and content streams given to the library share state that they read and change, then every run is the run of a program without state that makes the same calls with closures making, each time, calls they could make. A closure is called once where its calls are used and finds the state its last call left; a stream given as content is asked once for each of its events and once at its end. So no state makes the library panic, there is one result, results are well nested if all possible programs are well typed with valid arguments, and if the possible programs have a bounded size then there is a result after a number of steps in proportion to the length of the template. With an iterator or a content stream that never ends there is none; and selections sharing state are not transformations one after the other.", "quantifier": "all types of state, all closures, iterators and content streams reading and changing it, all programs and templates", "why_tests_cant": "It quantifies over arbitrary closures and states; each test runs one closure from one state.", "anchors": ["src/transform.rs: build_once, build_mut, build_mut_mapped", "src/builder.rs", "src/modifier/select/mod.rs", "src/modifier/repeat.rs", "src/modifier/apply.rs", "src/content.rs: impl IntoStream for S, for Result<S, E>"]}
{"id": "C68", "title": "Transformations with state return if iterators and content streams end", "statement": "If the closures, iterators and content streams given to the library share state, and every iterator ends after finitely many items and every content stream ends or fails after finitely many events whatever the state is when it is called, then the transformation of every template returns, with a template or an error, however much the numbers of items and events, the calls made by closures and their nesting depend on the state. Every program without state is of this kind.", "quantifier": "all types of state, all closures, iterators and content streams that end, all templates, nested or not", "why_tests_cant": "It quantifies over arbitrary closures and states without a bound; a test runs one closure from one state.", "anchors": ["src/transform.rs: build_once, build_mut, build_mut_mapped", "src/builder.rs", "src/modifier/repeat.rs", "src/modifier/select/mod.rs"]}
{"id": "C69", "title": "Selectors that match more than elements", "statement": "A selector written by the user may match any event, for example as the negation of a selector of the library. If on its way through the template select, or select_once with its first match, meets a matching event that does not begin an element, outside of the elements already selected, the transformation fails whatever the builder does, and if the builder has no errors of its own the error names the first such event. If all matching events it meets begin elements, the result is as if the selector matched nothing else. In every program, whatever its selectors, each error was given to a call or is one of these.", "quantifier": "all selectors, all templates, all builders, direct children or descendants", "why_tests_cant": "It quantifies over all predicates on events as selectors and over all builders; tests use the selectors of the library.", "anchors": ["src/select.rs: Selector", "src/modifier/select/mod.rs", "src/modifier/select/element.rs", "src/event.rs: expected_open"]}
{"id": "C70", "title": "The representation of the state of closures does not matter", "statement": "Let two programs make the same calls with the same arguments, their closures sharing states of different types, such that closures called in related states leave related states and make the same calls in turn (and iterators have an item or none alike, and content streams the same events). Then both transformations return the same result or error after the same number of steps and leave related states, or neither returns. So what every closure of a program keeps true of the state is true of the state afterwards; a program whose calls do not depend on the state gives the result of the program without state that makes these calls; and a program returns if one like it has only iterators and content streams that end.", "quantifier": "all types of states, all relations between them, all programs related by it, all templates and numbers of steps", "why_tests_cant": "It is about all representations of state by closures, and about programs that do not return.", "anchors": ["src/transform.rs: Api", "src/transform.rs: build_once, build_mut, build_mut_mapped", "src/modifier/repeat.rs", "src/modifier/apply.rs"]}
{"id": "C71", "title": "Selections in streams whose tags do not match", "statement": "A stream of the user put into a transformation may have tags that do not match; a selection after it sees these events. A closing tag for which nothing is open: what comes before it is transformed as usual, then the transformation fails with an error that names the tag; select_once does so only if it has selected nothing yet, and otherwise passes whatever follows as it is. A selected element that is not closed, because the events end or another tag is closed: if its builder begins by looking at the contents then the transformation fails, with the error for a missing closing tag or one that was given to a call. If its builder does not look at the contents (it removes or replaces the element, or adds something beside it) then there is no error: all events up to the end belong to the element. If nothing matches then the events are passed as they are as long as nothing is closed that was not opened, whatever the names of the tags are. The documented claim that the error for a missing closing tag has no event only at the end of the input is refuted.", "quantifier": "all well-nested templates, all ill-nested contents, selectors that match elements only, all well-typed builders", "why_tests_cant": "There are infinitely many ill-nested streams; the tests use parsed templates, which are well nested.", "anchors": ["src/modifier/mod.rs: Level", "src/modifier/select/mod.rs: Select, SelectOnce", "src/modifier/select/element.rs", "src/modifier/select/select_contents.rs: CurrentContent", "src/event.rs: MalformedReason"]}
{"id": "C72", "title": "Streams that have ended stay ended", "statement": "A stream that has said that it has no more events, or that has failed, says from then on that it has no more events, however often and by whichever of the two ways it is asked, and neither the stream nor any cell shared with other streams changes. In particular nothing is given after an error.", "quantifier": "all streams of every kind in every state, whatever the shared cells contain, all numbers of further requests", "why_tests_cant": "A test collects events up to the end and then stops; the states in which a stream can end are not bounded.", "anchors": ["src/event.rs: Stream, StreamResult", "src/modifier/append.rs", "src/modifier/prepend.rs", "src/modifier/repeat.rs", "src/modifier/replace.rs", "src/modifier/apply.rs", "src/modifier/mod.rs", "src/modifier/select/mod.rs: Select, SelectOnce"]}
{"id": "C73", "title": "Transformations look only at what calls and selectors name", "statement": "Two transformations that make the same calls on two templates, where tags correspond to tags, texts to texts and selectors decide alike about corresponding tags, both return corresponding results or errors, or neither returns. In particular, exchanging texts and comments of a template changes the result only in these texts; attributes that no call names, other than class and id, have no influence on the rest of the result; and renaming tags in the template, the selectors and the contents renames them in the result.", "quantifier": "all pairs of templates and programs that correspond, for all correspondences of tag names that keep equal names equal and different names different", "why_tests_cant": "It relates every pair of templates that differ in unnamed details; a test runs one of them.", "anchors": ["src/modifier/mod.rs", "src/modifier/select/mod.rs: Select, SelectOnce", "src/modifier/attribute.rs", "src/select.rs: Selector", "src/transform.rs: Api"]}
{"id": "C74", "title": "Streams given as contents are not asked again", "statement": "A stream given as contents that has ended or failed is not asked for further events: whatever it would do if it were asked (give events again, change the state of the program), the result, the state of the program afterwards and the steps taken are the same as if it were gone.", "quantifier": "all templates, all programs whose closures, iterators and content streams read and change a common state of any type, all states, all numbers of steps", "why_tests_cant": "Streams outside the library can behave in any way after their end, and can be used in any combination of calls; the streams of the library that tests use keep ending.", "anchors": ["src/event.rs: Stream", "src/modifier/mod.rs: Combine, Fallible", "src/modifier/append.rs", "src/modifier/prepend.rs", "src/modifier/replace.rs"]}
{"id": "C75", "title": "Closures that use up a common supply, and programs alike from some time on", "statement": "If each item of an iterator given to repeat and each event of a stream given as contents takes something from a finite supply in the state of the program, and no closure puts anything in, then the transformation returns, with no more in the supply than there was, even if each iterator alone has no end. Programs that behave alike only from a stage of the program on (where more and more is known of the state) have the same result in the same number of steps, and corresponding states afterwards.", "quantifier": "all templates, all programs and states, all measures of the supply, all relations between the states indexed by stages with any preorder", "why_tests_cant": "Iterators that share a queue or a counter end only together, in an order fixed by the interleaving of nested streams; tests try some interleavings.", "anchors": ["src/modifier/repeat.rs", "src/modifier/select/**", "src/modifier/mod.rs: Combine", "src/transform.rs"]}
{"id": "C76", "title": "What a transformation keeps does not depend on the document", "statement": "Between two events, the streams of a transformation and the events they have buffered are bounded in number by the depth of the program, however long or deeply nested the template is and however far the transformation has gone, if the program makes no call that has to collect its selection (repeat, repeat_contents, their or_else variants, apply_as_template). With such calls this holds of the number of streams, buffered events and collected lists; the lists themselves can be as long as the document (finding: repeat keeps all of its selection even for a single copy).", "quantifier": "all programs with a depth, all templates, all numbers of events asked for; shared cells counted wherever they are referred to", "why_tests_cant": "Memory held by nested streams is not observable in results, and a leak that grows with the document shows only on documents larger than those of tests.", "anchors": ["src/modifier/**", "src/modifier/mod.rs: Peek", "src/modifier/repeat.rs", "src/modifier/apply.rs"]}
{"id": "C77", "title": "What a transformation keeps does not depend on what closures with state do", "statement": "C76 holds also for programs whose closures, iterators and content streams share state, and may be endless: between two events the streams of a transformation and the events they have buffered are bounded in number by the depth of the program (the most calls its closures make, at any time and in any state), whatever the template, the state and the number of events asked for, if no call collects its selection; with calls that collect, this holds of streams, buffered events and collected lists.", "quantifier": "all programs of the model with state that have a depth, all types of state, all states, all templates, all numbers of events asked for", "why_tests_cant": "Endless iterators and content streams cannot be run to their end, and the memory held by nested streams is not observable in results.", "anchors": ["src/modifier/**", "src/content.rs: Stream", "src/modifier/repeat.rs", "src/modifier/select/mod.rs"]}
{"id": "C78", "title": "The depth of calls does not depend on what closures with state do", "statement": "C58 holds also for programs whose closures, iterators and content streams share state and may be endless: with a room for calls inside each other that depends on the depth of the program only, a transformation never runs out of room, whatever the template, the state and the number of loop iterations, also if it does not return; and with this room its results are the same as without a limit.", "quantifier": "all programs of the model with state that have a depth, all types of state, all states, all templates, all numbers of loop iterations, anything that might be done without room", "why_tests_cant": "A transformation that does not return cannot be tested to its end; the stack that deep documents and long-running iterators need is found only by exhausting it.", "anchors": ["src/modifier/**", "src/event.rs: next_event_skip_noop", "src/template.rs: from_stream, transform"]}
{"id": "C79", "title": "Streams that have ended stay ended, whatever happens to the state of the program", "statement": "C72 holds also for programs whose closures, iterators and content streams share state: a stream of the library that has ended or failed says, asked again, that it has ended, also if the state of the program has changed in the meantime; the stream and the shared cells stay as they are and the state of the program is not changed, and nothing comes after an error.", "quantifier": "all streams of the model with state in all their states, all types of state, all cells, all numbers of further calls, all changes of the state between them", "why_tests_cant": "Most kinds of stream are asked again only in rare combinations, and a content stream that would go on later is not seen unless its state changes at just that moment.", "anchors": ["src/event.rs: Stream, next_event_skip_noop", "src/event.rs", "src/modifier/**: every next_event"]}
{"id": "C80", "title": "Programs with state look only at what their calls and selectors name", "statement": "C73 holds also for programs whose closures, iterators and content streams share state: two programs that make calls that are alike, in states that correspond, give results that are alike on templates that are alike, and leave states that correspond. So texts of the template, and attributes that no call names and no selector can see, influence neither the rest of the result nor the state of the program afterwards; renaming tags in the template, in selectors and in contents (also those from streams) renames them in the result and leaves the same state.", "quantifier": "all templates, all programs of the model with state and all types of state, all relations between states, all relations of alikeness that respect names of tags; for texts, attributes and renaming all programs with element or library selectors that do not use apply_as_template", "why_tests_cant": "That no information flows from a text into the state of a program is a claim about all pairs of runs, and no set of runs shows it.", "anchors": ["src/modifier/mod.rs", "src/modifier/select/**", "src/modifier/attribute.rs", "src/select.rs: Selector", "src/transform.rs: Api"]}
{"id": "C81", "title": "Results of programs with state are well nested, come from what was given, and can be read back", "statement": "What C17, C29, C41 and C60 say of results holds also for programs whose closures, iterators and content streams share state, with conditions on the calls that the program or its closures can make in any state: well-typed programs with valid arguments keep templates well nested; an error in the result was given to one of these calls or comes from a stream or function of the program; a call that is always made and is given an error makes the transformation fail; a text in the result is from the template or was brought by one of these calls; and if all texts written are literals or numbers, also ones kept in the state, the result is rendered to a document that is read back with the same structure.", "quantifier": "all well-nested templates (for reading back: all parsed texts), all well-typed programs of the model with state, all types of state and all initial states", "why_tests_cant": "The calls made depend on the state, and a test sees those of a few states only.", "anchors": ["src/transform.rs: Api", "src/modifier/**", "src/content.rs", "src/template.rs: Template::transform"]}
{"id": "C82", "title": "A closure with state is called once per selected element, in the state its last call left", "statement": "Let select or select_direct be given a closure with state, after calls without state, and let the calls that the closure makes have no state of their own. Then the closure is called exactly once for each selected element, in document order; its first call finds the initial state and every other call the state that the call before it left; the result is the template with each selected element replaced by what the calls made for it give; and the final state is the one the last call left. If the calls made for an element fail, their error is the result, and the closure is not called for any later element.", "quantifier": "all well-formed templates, all calls before it, all element selectors, all closures and types of state, all initial states", "why_tests_cant": "Tests look at the results for a few closures; they do not see how often a closure is called in general, nor that it is never called ahead.", "anchors": ["src/modifier/select/mod.rs: Select", "src/modifier/select/select_any.rs", "src/modifier/select/select_direct.rs", "src/transform.rs: Api"]}
{"id": "C83", "title": "repeat, repeat_or_else and apply_as_template with state: the template is read first and once, iterator and closures take turns on copies", "statement": "Let calls p, with or without state, be followed by repeat, repeat_or_else or apply_as_template, given iterators, closures and functions with state. repeat lets p give all its events first, in the initial state; if that fails its error is the result and the iterator is never called. Then, in turn, the iterator is called in the state there is, and the closure it yields is run on a copy of these events exactly as if that were a transformation of its own, started in the state the iterator left; the results follow one another; the iterator is called again only after the copy was given in full, in the state that left, until it yields nothing or a copy fails, and is never called after that. repeat_or_else calls the iterator once before p reads anything; if it yields nothing the other closure makes its calls after p, otherwise the rest is as for repeat with that item as the first. apply_as_template calls its function exactly once, with all events that p gives, in the state in which giving them ended, and not at all if p fails. These are all the results and final states that there are.", "quantifier": "all templates (well-formed or not), all calls p with any closures, all iterators, closures and functions, all types of state and initial states", "why_tests_cant": "How iterators, closures and the reading of the template interleave is only visible through shared state; tests see a few interleavings and cannot show that a copy behaves like a transformation of its own.", "anchors": ["src/modifier/repeat.rs: Repeat", "src/modifier/repeat.rs: RepeatOrElse", "src/modifier/apply.rs: TemplateApply", "src/transform.rs: Api", "src/template.rs: Template"]}
{"id": "C84", "title": "append, prepend, replace and remove with state: in which order content and selection are read", "statement": "Let calls p, with or without state, be followed by append, prepend, replace or remove, and let the content given be of any kind, including streams that have state. append reads the whole selection first and then the whole content; if the selection fails the content is never asked for anything. prepend and replace read the whole content before anything of the selection is read; if the content fails nothing of the selection is read, so no closure of p is called. replace and remove read the selection to its end: its closures have all their effects on the state and its errors are the result, although none of its events are given. The result is the events in that order without Noop events; the final state is the one after the last reading; a content stream is not called after it ended or failed. These are all the results and final states that there are.", "quantifier": "all templates (well-formed or not), all calls p with any closures, all contents, all types of state and initial states", "why_tests_cant": "The order of reading is only visible through shared state and through which closures run before a failure; tests do not observe it.", "anchors": ["src/modifier/append.rs: Append", "src/modifier/prepend.rs: Prepend", "src/modifier/replace.rs: Replace", "src/modifier/remove.rs: Remove", "src/modifier/mod.rs: Combine", "src/content.rs: Stream"]}
{"id": "C85", "title": "Calls on the contents of an element with state: what is called, when and in which state", "statement": "Let repeat_contents, repeat_contents_or_else, append_contents, prepend_contents or replace_contents be called on an element, with iterators, closures and content streams that have state. repeat_contents acts on the children of the element as repeat does on a whole selection: they are read once, iterator and closures take turns, each closure works on a copy of the children as if that were a transformation of its own in the state the iterator left; the tags are given once, around all the copies. repeat_contents_or_else calls the iterator once before anything is read; without an item the other closure is given the element itself. The content of the other calls is read exactly once, from the state there is to its end or first error. For a void element no closure, iterator or stream is called and the state stays as it is, except that repeat_contents_or_else still calls the iterator once, and the item it got is lost. These are all the results and final states that there are.", "quantifier": "all elements, all iterators, closures and contents, all types of state and initial states", "why_tests_cant": "Calls of iterators and streams are seen only through their effects on state that they share; tests do not look at elements for which nothing should be called.", "anchors": ["src/modifier/select/select_contents.rs: SelectContent", "src/modifier/select/select_contents.rs: CurrentContent", "src/modifier/repeat.rs: Repeat", "src/modifier/repeat.rs: RepeatOrElse", "src/modifier/mod.rs: Expand"]}
{"id": "C86", "title": "A closure with state that is used at most once is called exactly when there is something to call it for", "statement": "Let select_once, select_direct_once or subselect_contents be given a closure with state, after calls without state, and let the calls that the closure makes have no state of their own. select_once calls the closure exactly once if there is a match, for the first match in document order (select_direct_once: the first of the top level), in the initial state; the result is the template with that element replaced by what the calls give, or their error, and the final state is the one the closure left, also if its calls fail. If nothing matches, the closure is not called and template and state stay as they are. subselect_contents calls its closure exactly once if the element has an inside, even an empty one such as that of a self-closed element, and not at all for a void element.", "quantifier": "all well-formed templates, all calls before it, all selectors, all closures and types of state, all initial states", "why_tests_cant": "Whether a closure was called can be seen only through its effects; tests for elements that are absent look at the result, not at what was called.", "anchors": ["src/modifier/select/mod.rs: SelectOnce", "src/modifier/select/select_contents.rs: SelectContent", "src/modifier/select/select_any.rs", "src/modifier/select/select_direct.rs", "src/transform.rs: Api"]}
{"id": "C87", "title": "Subselection with a closure that has state calls it for what is selected inside the element, and for nothing else", "statement": "Let subselect, subselect_direct, subselect_once or subselect_direct_once be given a closure with state, after calls without state that give an element, and let the calls that the closure makes have no state of their own. subselect calls the closure exactly once for each selected descendant, in document order, each time in the state the last call left, never for the element itself, and not again after the calls for one of them failed; the result is the element with these descendants replaced, and the final state is the one the last call left. subselect_once calls it exactly once, for the first match inside, or not at all if there is none; then the state stays as it is. For a void element no closure is called. The direct variants see the children only.", "quantifier": "all well-formed elements, all calls before it, all selectors, all closures and types of state, all initial states", "why_tests_cant": "Tests see results for a few closures, not how often a closure is called in general; that it is not called for the element itself or for a void element has no effect on results.", "anchors": ["src/modifier/select/mod.rs: Select", "src/modifier/select/mod.rs: SelectOnce", "src/modifier/select/select_contents.rs: SelectContent", "src/modifier/select/subselect_any.rs", "src/modifier/select/subselect_direct.rs", "src/transform.rs: Api"]}
{"id": "C88", "title": "Calls that change attributes read what calls with state give, once, and change only the attributes of the first tag", "statement": "Let a call that changes attributes (add_attribute, set_attribute, add_class, set_id and so on) be made after any calls, whose closures, content and iterators may have state. If the result starts with an opening tag, then the calls before it alone give the same events and leave the same state, but for the attributes of that tag, to which the change has been applied; and conversely. If they give a void or self-closed tag first, the result is that tag with its attributes changed. If they give anything else first, or nothing, the call fails and says that the start of an element was expected. If the call fails, then either the calls before it alone fail with the same error and leave the same state, or the error says that the start of an element was expected. If the name is not an identifier, the call fails with the error for that name and no closure of the calls before is called: the state stays as it is.", "quantifier": "all lists of events, all calls before it with all closures, content streams and iterators, all types of state, all initial states, all calls that change attributes", "why_tests_cant": "Tests compare results for closures without state; that closures are called as often and in the same state as without the call, and not at all for a bad name, does not show in them.", "anchors": ["src/modifier/attribute.rs: AddAttribute", "src/transform.rs: Api", "src/event.rs: Stream"]}
{"id": "C89", "title": "Applying calls is making them, also with state; with a selector that could not be made no closure is called", "statement": "For programs whose closures, content and iterators may have state: apply, anywhere in a chain of calls, gives the same results and leaves the same states as making the calls of its closure at its place. So do apply_if, apply_if_else, apply_with_option and apply_with_result as the last call, with the calls of the closure that was chosen. A selection of any kind (select, select_once, subselect, subselect_once and the direct variants) with a selector that could not be made fails with the error for that selector, whatever the calls before do, and no closure is called, neither its own nor one of the calls before: the state stays as it is.", "quantifier": "all lists of events, all calls with all closures, content streams and iterators, all types of state, all initial states", "why_tests_cant": "Tests compare a few results for closures without state; that no closure was called, and in which state closures are called, does not show in results.", "anchors": ["src/modifier/apply.rs: ApplyEither", "src/modifier/mod.rs: Fallible", "src/transform.rs: Api"]}
