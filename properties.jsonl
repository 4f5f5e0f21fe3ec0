{"id": "C01", "title": "Output is never bigger than the input unless allowed", "statement": "When the program terminates successfully and --allow-bigger-file was not given, the number of bytes it writes is at most the number of bytes of the input file, plus one for the trailing newline when --append-newline is given; if the cleaned text would be bigger, the original bytes are written instead (or nothing but a copy).", "quantifier": "every input text, every behaviour of the parser/cleaner on each pass, every combination of options", "why_tests_cant": "the size relation must hold for every document and every number of passes; tests sample a few files", "anchors": ["src/main.rs: main, save_file/on_err flow", "src/cli.rs: key::ALLOW_BIGGER_FILE"]}
{"id": "C02", "title": "A failed run never writes anything except a byte-identical copy of the input", "statement": "If parsing or cleaning fails on any pass, the output file is either not written at all or receives exactly the input bytes, and the latter only happens when copy-on-error is enabled and input and output paths differ.", "quantifier": "every input, every pass at which an error can occur, every result of the file copy", "why_tests_cant": "the failing pass and the failure of the copy are environment behaviours that no finite set of fixtures covers", "anchors": ["src/main.rs: main, on_err, copy_file"]}
{"id": "C03", "title": "Multipass cleaning stops exactly at the first pass whose size equals the previous one", "statement": "With --multipass every pass parses the text produced by the previous pass with the same options; the loop stops at the first pass whose output length equals the length of the previous text and the saved text is the output of that last pass. Without --multipass exactly one pass is run. If the lengths never grow the loop terminates.", "quantifier": "every input text and every pass function", "why_tests_cant": "termination over an unbounded number of passes", "anchors": ["src/main.rs: main loop"]}
{"id": "C04", "title": "Command line options resolve to explicit value, else documented default, else off", "statement": "For every cleaning option, the option used by the cleaner is the explicitly given value if present; otherwise, it is the documented default, or off when --no-defaults is given; no option is influenced by another option's flag.", "quantifier": "every set of command line flags", "why_tests_cant": "2^40 flag combinations", "anchors": ["src/cli.rs: cleaning_options, resolve, resolve_inv, gen_parse_options", "src/options.rs"]}
{"id": "C05", "title": "Inconsistent option combinations are rejected, consistent ones accepted", "statement": "The program rejects a command line exactly when an enabled option requires another option that is disabled (in terms of the options that are actually going to be used).", "quantifier": "every set of command line flags", "why_tests_cant": "2^40 flag combinations", "anchors": ["src/cli.rs: check_values, get_flag"]}
{"id": "C06", "title": "Accepted precisions are always usable for rounding", "statement": "Every precision string accepted by the command line parses to an integer between 1 and 12, for which the rounding multiplier is the power of ten of that exponent (never zero and never out of range).", "quantifier": "every string", "why_tests_cant": "infinitely many strings", "anchors": ["src/cli.rs: is_precision", "src/task/utils.rs / svgdom WriteBuffer precision", "src/task/paths/mod.rs"]}
{"id": "C07", "title": "Unsupported documents are rejected before any modification", "statement": "The pre-clean check succeeds exactly when the document contains no animation element, no script element and no event handler attribute, no non-empty conditional-processing attribute and no string xlink:href on an element other than a, image, font-face-uri and feImage; on failure the document is unmodified.", "quantifier": "every document", "why_tests_cant": "any element at any depth", "anchors": ["src/task/preclean_checks.rs: preclean_checks"]}
{"id": "C08", "title": "No pass leaves a dangling or duplicated node reference", "statement": "If every link of a document points to an element of the document, then the same holds after every cleaning pass, element identities stay unique, and no surviving link is redirected to an element that is not equivalent to its original target.", "quantifier": "every well-formed document and every pass", "why_tests_cant": "any sharing pattern of links, any order of removal", "anchors": ["src/task/*.rs: uses of node.remove(), set_attribute(link)"]}
{"id": "C09", "title": "Trimmed ids are valid, pairwise distinct and shortest-first", "statement": "The id generator used by trim-ids never returns the same id twice, every id is non-empty, consists of ASCII letters and digits and starts with a letter, ids come out in non-decreasing length, all ids of a given length are used before the next length, and only after exhausting the whole id space does the generator stop.", "quantifier": "every number of renamed elements", "why_tests_cant": "52*62^4 ids", "anchors": ["src/task/trim_ids.rs: trim_ids, gen_id / Counter"]}
{"id": "C10", "title": "Trimming ids renames exactly the referenced SVG elements with an id and nothing else", "statement": "trim-ids changes only ids of SVG elements, keeps every link pointing to the same element, and gives pairwise distinct ids; elements without id stay without id.", "quantifier": "every document", "why_tests_cant": "unbounded number of elements and mixed foreign elements", "anchors": ["src/task/trim_ids.rs: trim_ids"]}
{"id": "C11", "title": "Only ids that nothing refers to are dropped", "statement": "remove-unreferenced-ids clears the id of an SVG element exactly when no link in the document refers to this element; nothing else changes.", "quantifier": "every document", "why_tests_cant": "any link structure", "anchors": ["src/task/rm_unref_ids.rs: remove_unreferenced_ids"]}
{"id": "C12", "title": "Removing titles, descriptions and metadata removes exactly those elements", "statement": "After remove-title / remove-desc / remove-metadata no element with that name remains; every other element outside the removed subtrees is still there, in the same order, and only links into removed subtrees vanish.", "quantifier": "every document", "why_tests_cant": "nesting depth unbounded", "anchors": ["src/task/rm_elems.rs: remove_element"]}
{"id": "C13", "title": "After group_defs there is exactly one defs, it comes first and holds every referencable element", "statement": "After the defs-grouping pass the svg element's first child is the only defs element, every clipPath, marker, mask, pattern, gradient, symbol, filter etc. is a direct child of it, and each moved element keeps the inheritable style it had.", "quantifier": "every document", "why_tests_cant": "defs nested arbitrarily", "anchors": ["src/task/group_defs.rs: group_defs"]}
{"id": "C14", "title": "Unused definitions are removed to a fixpoint and used ones never", "statement": "remove-unused-defs terminates; afterwards every child of defs is referenced (or is a font resource); it never removes an element that is referenced or contains a referenced element.", "quantifier": "every document", "why_tests_cant": "chains of definitions of any length", "anchors": ["src/task/rm_unused_defs.rs: remove_unused_defs"]}
{"id": "C15", "title": "inherit and currentColor are resolved to the nearest ancestor's value", "statement": "After a successful resolve-inherit pass no attribute of an SVG element has the value inherit or currentColor; each inherit gets the value of the nearest ancestor carrying the attribute and each currentColor the color value in effect; if there is no such ancestor the document is rejected with an error, never silently changed.", "quantifier": "every document and depth", "why_tests_cant": "ancestor chains of any length", "anchors": ["src/task/resolve_inherit.rs: resolve_inherit"]}
{"id": "C16", "title": "Gradient attributes are resolved along the xlink:href chain", "statement": "After the gradient attribute resolution every gradient carries an explicit value for each geometry attribute, equal to its own value, else the first value found along the href chain, else the SVG default (for the focus: the resolved centre); the pass terminates exactly on href graphs without cycles among the gradients visited.", "quantifier": "every document, every href chain", "why_tests_cant": "chains of arbitrary length and document order", "anchors": ["src/task/resolve_gradients.rs"]}
{"id": "C17", "title": "Stop offsets are always present after resolution, or the document is rejected", "statement": "The stop resolution pass fails exactly when a non-first child of a gradient lacks an offset; on success every stop has an offset.", "quantifier": "every gradient", "why_tests_cant": "any number of stops", "anchors": ["src/task/resolve_gradients.rs: resolve_stop_attributes"]}
{"id": "C18", "title": "Invalid attribute fixing establishes the SVG validity conditions and is idempotent", "statement": "After fixing, rect width/height are present and non-negative, rx/ry are non-negative if present, polyline/polygon points come in pairs, stop offsets lie in [0,1] and never decrease, and no marker shorthand remains; already valid attributes are untouched; applying the pass twice is the same as once.", "quantifier": "every document", "why_tests_cant": "arbitrary values and number of stops", "anchors": ["src/task/fix_attrs.rs"]}
{"id": "C19", "title": "Rounding moves a number by at most half a unit of the last kept digit and is idempotent", "statement": "The rounding function returns the multiple of 10^-p nearest to its argument, ties away from zero, is monotone, odd and idempotent, and only numeric attribute values are changed by the round pass.", "quantifier": "every number, every precision 1..12", "why_tests_cant": "infinitely many numbers", "anchors": ["src/task/round_numbers.rs", "src/task/utils.rs"]}
{"id": "C20", "title": "Removing redundant gradient stops does not change the painted colour ramp", "statement": "For every gradient and every offset the colour given by the stop list is the same before and after remove-invalid-stops.", "quantifier": "every stop list, every offset", "why_tests_cant": "continuum of offsets", "anchors": ["src/task/rm_invalid_stops.rs: remove_invalid_stops"]}
{"id": "C21", "title": "Merging duplicate gradients never changes a paint", "statement": "Two gradients are merged only if they resolve to the same geometry and the same stops, and after merging every element that used one of them uses the kept one.", "quantifier": "every document", "why_tests_cant": "any number of gradients and uses", "anchors": ["src/task/rm_dupl_defs/mod.rs, linear_gradient.rs, radial_gradient.rs"]}
{"id": "C22", "title": "Merging duplicate blur filters never changes a filter result", "statement": "Two filters are merged only if each contains exactly one feGaussianBlur with equal attributes and the filter regions are equal; afterwards every user of the removed one uses the kept one.", "quantifier": "every document", "why_tests_cant": "any number of filters and users", "anchors": ["src/task/rm_dupl_defs/fe_gaussian_blur.rs"]}
{"id": "C23", "title": "Inlining a gradient into its single user preserves its resolved form", "statement": "merge-gradients only removes a gradient that is referenced exactly once and only through xlink:href of another gradient; afterwards the user has the same effective stops and geometry attributes; the pass terminates.", "quantifier": "every document", "why_tests_cant": "href chains of any length", "anchors": ["src/task/merge_gradients.rs: merge_gradients"]}
{"id": "C24", "title": "Applying a transform to a gradient yields the same gradient geometry", "statement": "When a gradient's gradientTransform is applied to its coordinates, the mapped start/end points, centre, focus and radius are exactly the images under the transform and the transform is removed; gradients with a transform that is not a uniform positive scale plus translation are left untouched.", "quantifier": "every gradient and transform", "why_tests_cant": "continuum", "anchors": ["src/task/apply_transforms/gradients.rs, mod.rs"]}
{"id": "C25", "title": "Applying a transform to a shape keeps its painted geometry and stroke width", "statement": "When the transform of a rect/circle/ellipse/line is applied, the outline and the stroke width in user space equal the transformed ones; non-uniform transforms and elements whose transform may not be dropped are left untouched.", "quantifier": "every shape and transform", "why_tests_cant": "continuum", "anchors": ["src/task/apply_transforms/shapes.rs, mod.rs, utils recalc_stroke"]}
{"id": "C26", "title": "Ungrouping groups preserves what is painted", "statement": "ungroup-groups terminates and keeps the sequence of painted leaf elements together with their accumulated transform, accumulated opacity and computed inheritable style.", "quantifier": "every document", "why_tests_cant": "nesting of arbitrary depth", "anchors": ["src/task/ungroup_groups.rs"]}
{"id": "C27", "title": "Grouping elements by style preserves what is painted", "statement": "group-by-style terminates and keeps, for every leaf element, document order, accumulated transform and computed inheritable style; attributes are only moved to a common parent when all members share the value.", "quantifier": "every document", "why_tests_cant": "any number of siblings", "anchors": ["src/task/group_by_style.rs"]}
{"id": "C28", "title": "Only elements that cannot be painted are removed as invisible", "statement": "remove-invisible-elements removes only elements that the SVG specification renders as nothing; an element that is visible stays.", "quantifier": "every document", "why_tests_cant": "unbounded combinations of attributes and links", "anchors": ["src/task/rm_invisible_elems.rs"]}
{"id": "C29", "title": "Resolving use elements keeps the painted content", "statement": "When a use of an element referenced only once is replaced with this element, the result paints the same: the element keeps its own attributes, x/y become a translation composed after the use's transform.", "quantifier": "every document", "why_tests_cant": "any attribute combination", "anchors": ["src/task/resolve_use.rs"]}
{"id": "C30", "title": "Removing default-valued attributes preserves the computed value of every property", "statement": "After remove-default-attributes every element computes the same value for every presentation attribute.", "quantifier": "every document", "why_tests_cant": "ancestor chains", "anchors": ["src/task/rm_default_attrs.rs"]}
{"id": "C31", "title": "Text attributes are only removed where no text can see them", "statement": "remove-text-attributes never changes the computed text properties of an element containing or referencing text.", "quantifier": "every document", "why_tests_cant": "depth and use indirections", "anchors": ["src/task/rm_text_attrs.rs"]}
{"id": "C32", "title": "Needless fill, stroke and clip attributes are only removed where they have no effect", "statement": "remove-needless-attributes only removes stroke attributes where the stroke is not painted, fill attributes where fill is not painted and clip-rule/overflow where they do not apply.", "quantifier": "every document", "why_tests_cant": "depth, inheritance", "anchors": ["src/task/rm_needless_attrs.rs"]}
{"id": "C33", "title": "Unused coordinates are removed only when they equal the value implied by their absence", "statement": "After remove-unused-coordinates each basic shape, gradient and root svg has the same effective coordinates.", "quantifier": "every document", "why_tests_cant": "continuum of values", "anchors": ["src/task/rm_unused_coords.rs"]}
{"id": "C34", "title": "Redundant gradient attributes are only removed when the href chain supplies the same value", "statement": "remove-gradient-attributes keeps each gradient's effective units, spread, transform and coordinates; it terminates.", "quantifier": "every document without href cycles", "why_tests_cant": "chains", "anchors": ["src/task/rm_gradient_attrs.rs"]}
{"id": "C35", "title": "Joining presentation attributes into style is lossless and conditional", "statement": "With 'some', an element gets a style attribute exactly if it has more than five visible presentation attributes; with 'all' every element; with 'no' none; parsing the produced style string yields exactly the joined attributes.", "quantifier": "every element", "why_tests_cant": "any set of attributes and values", "anchors": ["src/task/join_style_attrs.rs"]}
{"id": "C36", "title": "Converting shapes to paths preserves the outline", "statement": "The path generated for a line, rect, polyline or polygon draws exactly the outline of this shape; shapes that can not be converted (rounded rects, bad units, missing points) are left untouched.", "quantifier": "every shape", "why_tests_cant": "continuum", "anchors": ["src/task/conv_shapes.rs"]}
{"id": "C37", "title": "Path normalisation between absolute and relative commands preserves the drawn curve", "statement": "Converting a path to absolute/relative form and lines to horizontal/vertical form and back does not change the sequence of drawn segments.", "quantifier": "every path", "why_tests_cant": "any length and commands", "anchors": ["src/task/paths/mod.rs", "src/task/paths/conv_segments.rs"]}
{"id": "C38", "title": "Removing unused path segments preserves the drawn figure", "statement": "Segments removed by remove-unused-segments draw nothing or retrace an already drawn closing edge; the removal loop terminates.", "quantifier": "every path", "why_tests_cant": "any length", "anchors": ["src/task/paths/rm_unused.rs"]}
{"id": "C39", "title": "Curves are replaced by lines only if they trace the same line", "statement": "convert-segments replaces a curve by a line/smooth curve only when the replaced segment traces the same set of points.", "quantifier": "every path", "why_tests_cant": "continuum", "anchors": ["src/task/paths/conv_segments.rs"]}
{"id": "C40", "title": "Applying a transform to path data yields the transformed curve", "statement": "After apply-transform-to-paths the path data, in absolute coordinates, is point by point the image of the old data under the transform (arc radii scaled) and the transform attribute is gone; the stroke width is scaled.", "quantifier": "every path and uniform transform", "why_tests_cant": "continuum", "anchors": ["src/task/paths/apply_transform.rs"]}
{"id": "C41", "title": "Path processing never panics on a path that starts with a move", "statement": "For every path that begins with MoveTo, the whole path pipeline runs to completion without hitting an unreachable or index error.", "quantifier": "every path", "why_tests_cant": "all segment sequences", "anchors": ["src/task/paths/*.rs"]}
{"id": "C42", "title": "Sharing equal stop lists preserves every gradient's stops", "statement": "regroup-gradient-stops creates new gradients with fresh ids and afterwards each gradient's effective stop list is unchanged.", "quantifier": "every document", "why_tests_cant": "any number of gradients", "anchors": ["src/task/regroup_gradient_stops.rs"]}
{"id": "C43", "title": "The final fixes keep the document well-formed", "statement": "The final passes remove the version attribute, unused namespace declarations, empty defs and identity transforms only; an xmlns:xlink declaration remains whenever an xlink attribute is written.", "quantifier": "every document", "why_tests_cant": "any document", "anchors": ["src/task/final_fixes.rs, rm_version.rs, ungroup_defs.rs, rm_default_transform.rs"]}
{"id": "C44", "title": "Cleaning never aborts on a document with a root svg element", "statement": "For every parsed document that has an svg root, cleaning either succeeds or reports an error; it does not panic.", "quantifier": "every document and every option set", "why_tests_cant": "all option combinations", "anchors": ["src/cleaner.rs: clean_doc", "src/task/*.rs: unwrap calls"]}
{"id": "C45", "title": "Disabled options have no effect", "statement": "clean_doc with all options off performs only the mandatory normalisation passes, and each optional pass is run exactly if its option is set, in a fixed order.", "quantifier": "every option set", "why_tests_cant": "2^30 option sets", "anchors": ["src/cleaner.rs: clean_doc"]}
{"id": "C46", "title": "Removing defs wrappers keeps their content referenced and unrendered", "statement": "ungroup-defs moves out of defs only elements that are never rendered directly; no other element changes.", "quantifier": "every document", "why_tests_cant": "any defs content", "anchors": ["src/task/ungroup_defs.rs"]}
{"id": "C47", "title": "Cleaning comes to an end", "statement": "For every document, whatever the options, cleaning terminates: no loop of the cleaner (ungrouping, merging gradients, removing unused definitions, ordering gradients by their links) runs forever.", "quantifier": "every document and every option set", "why_tests_cant": "a test can only observe that one run on one document ended; links can form arbitrary graphs and each pass changes the graph for the next one", "anchors": ["src/cleaner.rs: clean_doc", "src/task/resolve_gradients.rs: gen_order", "src/task/rm_gradient_attrs.rs", "src/task/ungroup_groups.rs", "src/task/merge_gradients.rs", "src/task/rm_unused_defs.rs"]}
{"id": "C48", "title": "The named input is read and the named output is written", "statement": "`svgcleaner <in-file> <out-file>` reads the in-file and writes the out-file; with -c it writes to the standard output; \"-\" as the in-file stands for the standard input. In no case is a file that was named as input overwritten without being read.", "quantifier": "every command line accepted by the argument parser", "why_tests_cant": "the combinations of file names, -c and \"-\" are unbounded; a test fixes one of them", "anchors": ["src/cli.rs: input, output, prepare_app", "data/help.txt"]}
{"id": "C49", "title": "A cleaned document is accepted again", "statement": "A document that passed the preliminary checks and was cleaned passes them again when the result is read: cleaning brings no scripts, animations, event attributes, conditional attributes or external references into a document. So a second run, or the next pass of --multipass, is never refused because of what the first one did.", "quantifier": "every document that passes the checks, every option set", "why_tests_cant": "it must hold for every combination of passes and every document; a test cleans one document once", "anchors": ["src/task/preclean_checks.rs", "src/cleaner.rs: clean_doc", "src/main.rs: multipass loop", "src/task/rm_invisible_elems.rs: process_gradients"]}
{"id": "C50", "title": "No new kinds of content", "statement": "Every node of a cleaned document is of a kind that occurs in the input - the same element name, the same text, the same comment - or is a path, defs, g or linearGradient element.", "quantifier": "every document, every option set", "why_tests_cant": "all 42 passes in sequence over unbounded documents", "anchors": ["src/cleaner.rs: clean_doc", "src/task/*.rs"]}
{"id": "C51", "title": "Cleaning as a whole keeps the picture", "statement": "For the passes that are said to be lossless for what is drawn (removal of titles, descriptions and metadata, of repeated gradient stops, applying of transforms to gradients, ungrouping, grouping by style, ids, version, name space declaration, default transforms, empty defs), a run of the cleaner with all of them on gives a document with the same picture: the same shapes with the same styles, transforms, opacities, clip paths, masks, filters and conditions in the same order, and the same content of every mask, pattern, marker and clip path.", "quantifier": "every document in the stated class, every option set that only uses these passes", "why_tests_cant": "a pass that is right alone may be given a document by an earlier pass on which it is wrong; no finite set of documents shows that it is not", "anchors": ["src/cleaner.rs: clean_doc", "src/task/ungroup_groups.rs", "src/task/group_by_style.rs", "src/task/rm_elements.rs", "src/task/final_fixes.rs"]}
{"id": "C52", "title": "The removal options leave nothing of what they promise to remove", "statement": "After remove-text-attributes no SVG element without text inside has a text attribute; after remove-needless-attributes no SVG element has an attribute without effect, no unfilled (unstroked) element without children has other fill (stroke) properties and no zero opacity or stroke width is spelled out; after remove-invisible-elements no path without data, use without reference, rect without width or height, empty filter, empty clip path, gradient with less than two stops and no template, and no unreferenced element with display=none is left.", "quantifier": "every well formed document", "why_tests_cant": "one pass over a document that is changed while it is traversed; unbounded documents", "anchors": ["src/task/rm_text_attrs.rs", "src/task/rm_needless_attrs.rs", "src/task/rm_invisible_elems.rs"]}
{"id": "C53", "title": "Cleaning makes up no attribute names, texts, keywords or references", "statement": "Every attribute of a cleaned document has a name that occurs in the input or is one of a fixed list (geometry of rects and paths, attributes of gradients and stops that are made explicit, transform/opacity/stroke attributes that move between elements, the joined style, the xlink namespace declaration); its value is calculated (a number, length, color, transform or path, or one of four fixed keywords), or is a text, keyword or reference of the input that stood in an attribute of the same name (or of color, if the input uses currentColor; or of cx/cy for the focus of a gradient). A reference leads somewhere new only if duplicates are merged and it takes the place of a reference, or if stops are regrouped and it is the template of a gradient. Attributes that SVG does not know are never made up or changed. The keywords inherit and currentColor do not occur in the output.", "quantifier": "every document, every option set, every behaviour of svgdom that is a parameter; for the last sentence every well formed document whose keywords stand where the parser puts them", "why_tests_cant": "40 steps that copy, move and join attributes in unbounded documents", "anchors": ["src/cleaner.rs:clean_doc", "src/task/resolve_inherit.rs", "src/task/utils.rs", "src/task/join_style_attrs.rs"]}
{"id": "C54", "title": "What the last steps promise holds for the document that is saved", "statement": "No element of a cleaned document has an identity transform. With remove-version its outermost element has neither version nor baseProfile. With trim-ids the ids of its SVG elements are pairwise distinct generated ids. Whenever one of its SVG elements has an xlink:href, the outermost element declares xmlns:xlink; with remove-xmlns-xlink-attribute it declares it only if something is referenced or has an xlink:href. With remove-unreferenced-ids every element that has an id is referenced.", "quantifier": "every document that is cleaned, every option set and every behaviour of svgdom that is a parameter; where noted every well formed document and run in which no link is left dangling", "why_tests_cant": "the steps that come after the one that makes the promise can undo it, on documents of any shape", "anchors": ["src/cleaner.rs:clean_doc", "src/task/final_fixes.rs", "src/task/rm_default_transform.rs", "src/task/rm_version.rs", "src/task/trim_ids.rs", "src/task/rm_unref_ids.rs", "src/task/ungroup_defs.rs"]}
{"id": "C55", "title": "References can be written as ids and read again", "statement": "If in a document all ids are different and every node that is referred to has an id, then the same is true of the cleaned document; so the id of the target of each reference in the saved document, which is what is written there, is found again on that target and on nothing before it. With trim-ids this needs that only SVG elements have ids. If ids are not trimmed, an element of the cleaned document that has an id had this id in the original, or the id was generated for the gradient that regroup-gradient-stops makes.", "quantifier": "every well formed document with working ids, every option set, every run in which no link is left dangling (every run if gradients are not merged, stops not regrouped, use elements not resolved and ids not trimmed)", "why_tests_cant": "ids are made, changed, removed, copied and moved by several passes on documents of any shape; one reference that is caught by another element is enough", "anchors": ["src/cleaner.rs:clean_doc", "src/task/trim_ids.rs", "src/task/rm_unref_ids.rs", "src/task/regroup_gradient_stops.rs:gen_id", "src/task/group_defs.rs", "src/task/group_by_style.rs", "src/task/resolve_use.rs"]}
{"id": "C56", "title": "Gradients keep their colours", "statement": "Cleaning keeps the colours of gradients: every gradient that can be painted (it has stops, or the gradients it takes them from by xlink:href have, or none has) is in the saved document as an element of the same kind, and along its whole length, from before the first stop to behind the last one, the colour and the opacity are what they were, when the offsets of the original are brought into [0,1] and into ascending order as SVG demands.", "quantifier": "every prepared document (as in C51), every option set that enables no more than the passes of C51, every behaviour of svgdom that is a parameter", "why_tests_cant": "the colour at every place of every gradient, for gradients with any number of stops, any offsets and references between gradients of any length", "anchors": ["src/cleaner.rs:clean_doc", "src/task/resolve_gradients.rs", "src/task/fix_attrs.rs:fix_stop_attributes", "src/task/rm_invalid_stops.rs", "src/task/apply_transforms/gradients.rs", "src/task/ungroup_groups.rs", "src/task/group_by_style.rs"]}
{"id": "C57", "title": "Gradients keep their geometry", "statement": "Cleaning keeps where gradients are: every gradient is in the saved document as an element of the same kind, and all its values in effect - units, spread method, vector or circles, focus and transform, its own ones, those that it takes over by xlink:href and the defaults - are what they were, or its transform is gone and its points and its radius are mapped by it.", "quantifier": "every prepared document (as in C51) whose gradients refer to gradients, every option set that enables no more than the passes of C51, every behaviour of svgdom that is a parameter", "why_tests_cant": "references between gradients form chains of any length, values are copied along them and rounded, and any element can be moved or given attributes by ungrouping and grouping", "anchors": ["src/cleaner.rs:clean_doc", "src/task/resolve_gradients.rs", "src/task/fix_attrs.rs", "src/task/utils.rs:round_numbers", "src/task/ungroup_groups.rs", "src/task/group_by_style.rs", "src/task/apply_transforms/gradients.rs"]}
