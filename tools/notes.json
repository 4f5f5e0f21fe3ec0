{
 "C02": {
  "status": "partial",
  "note": "Proved when the requested copy succeeds; when the copy fails the program goes on and overwrites the output (C02_failed_copy_still_saves_refuted)."
 },
 "C03": {
  "status": "partial",
  "note": "Termination holds when sizes shrink (C03_terminates_when_shrinking) and is refuted in general (C03_always_terminates_refuted)."
 },
 "C04": {
  "status": "partial",
  "note": "Proved for all options except remove-unresolved-classes, which --no-defaults does not reset (refuted)."
 },
 "C05": {
  "status": "partial",
  "note": "Both directions are false of the code in corner cases, given as _refuted theorems; the partial theorem covers command lines without opt-outs."
 },
 "C09": {
  "status": "partial",
  "note": "Distinctness, alphabet, shortest-first order and capacity are proved for every index. Validity is proved for the first 657035132 ids and refuted beyond (ids starting with a digit)."
 },
 "C10": {
  "status": "partial",
  "note": "Proved for SVG elements; distinctness over the whole document is refuted when non-SVG elements carry ids."
 },
 "C43": {
  "status": "partial",
  "note": "All final fixes proved; the xmlns:xlink declaration claim holds for xlink:href and is refuted for other xlink attributes."
 },
 "C46": {
  "status": "proved",
  "note": "Rendered nodes and node data are preserved. A stronger reading (inherited style is preserved) is refuted."
 },
 "C37": {
  "status": "proved",
  "note": "For every path that starts with a MoveTo (parsed paths do). conv_to_absolute/conv_to_relative live in svgdom and are modelled after their documented contract."
 },
 "C38": {
  "status": "partial",
  "note": "Proved for every path of lines and arcs, and for every path without two hazards (a curve equal to the previous segment; a smooth curve after a zero-length line). In both hazards the figure really changes (refuted theorems). Termination proved for all."
 },
 "C39": {
  "status": "partial",
  "note": "Proved piece by piece for paths without an S directly after a C; equality of point sets when the control points of straight curves are between the ends. Overshooting control points and S after a converted C are refuted."
 },
 "C40": {
  "status": "partial",
  "note": "Path data part proved for every path; element level (process_paths) proved for documents where shapes are not nested in each other; stroke attributes scaled. Markers in userSpaceOnUse are not considered by the code."
 },
 "C41": {
  "status": "proved",
  "note": "For every path that starts with a MoveTo and all options, markers and transforms."
 },
 "C19": {
  "status": "proved",
  "note": "Exact-rational model: nearest multiple, ties away from zero, unique; monotone, odd, idempotent; the pass changes only numbers of the listed attributes. The stronger reading that a relative path moves by at most half a unit is refuted."
 },
 "C17": {
  "status": "proved",
  "note": "Failure condition, error kind, absence of panics and the exact result for every child of a gradient."
 },
 "C18": {
  "status": "proved",
  "note": "Validity, exact changes, idempotence, and the exact panic condition. A stop offset with a unit (if svgdom's parser lets it through) panics: refuted theorem."
 },
 "C20": {
  "status": "partial",
  "note": "Proved for all well-formed documents whose gradients contain only (empty) stop elements; refuted when gradients have other children such as title."
 },
 "C36": {
  "status": "proved",
  "note": "Exact outline, failure condition and totality."
 },
 "C25": {
  "status": "partial",
  "note": "Full geometry and stroke statement for all documents whose shapes are not nested in shapes; a transform attribute on a non-SVG element panics (refuted theorem)."
 },
 "C15": {
  "status": "proved",
  "note": "The stronger reading for properties that are not inherited (opacity: the parent's value only) is refuted: the code takes the value of a distant ancestor (C15_not_inherited_property_refuted). C15_fails_iff is exact about errors and aborts: the program aborts exactly when a resolved keyword would set a link svgdom refuses (C15_self_link_refuted is such a document)."
 },
 "C16": {
  "status": "partial",
  "note": "Linear gradients: full. Radial gradients: full when the href targets of radial gradients are radial (for fx/fy); a radial-linear-radial chain gets a wrong focus (C16_mixed_focus_refuted) and a href cycle never ends (C16_cycle_never_ends_refuted)."
 },
 "C24": {
  "status": "partial",
  "note": "C24_apply: exact effect of the pass on every node. C24_same_gradient_partial: the values in effect in the saved document (hidden attributes are not written). Missing: a radial gradient whose r comes over xlink:href and whose transform scales; this case is wrong in the code (C24_hidden_radius_refuted)."
 },
 "C30": {
  "status": "proved",
  "note": "Computed values of all presentation attributes (overflow separately) for every document, idempotence, and C30_absent_means_the_same_partial for the other attributes. Real defects outside the statement are refuted: slope=1 of font-face, pattern with xlink:href, copies made by use. The table of initial values of svgdom is a parameter."
 },
 "C33": {
  "status": "partial",
  "note": "C33_effect: exactly which attributes can be hidden. Radii of rects in every viewport (not for percentages: C33_percent_radii_refuted), values in effect of gradients when linear gradients do not refer to radial ones (else C33_mixed_chain_refuted)."
 },
 "C31": {
  "status": "partial",
  "note": "Text nodes, empty trefs and empty elements with em/ex lengths below SVG elements see the same text properties, texts are shown the same (xml:space), only text attributes are removed. Not covered because the code is wrong there: use of text below a group, em lengths on elements with children, text in foreignObject, line breaks (all _refuted)."
 },
 "C32": {
  "status": "partial",
  "note": "Model of the whole of rm_needless_attrs.rs. Proved for every document with unique keys and attribute names: outside of clipPath contents the stroke (fill) of every element is painted after the pass exactly if it was before, and then all its stroke (fill) properties have the same computed value in the saved document (hidden attributes being defaults, as C30 leaves them); only attributes without effect on the element, fill and stroke attributes and (for unreferenced children of clipPaths) opacity disappear; elements with children keep fill and stroke. Missing: copies made by use elements and the marker scale, for which the English claim is false (refuted theorems)."
 },
 "C34": {
  "status": "partial",
  "note": "Termination and preservation of every effective gradient attribute in the saved document, for documents without href cycles whose gradients refer to each other by xlink:href only and carry the units in effect (C34_after_resolve: this is what resolving gives). gradientUnits of a gradient that is only a template of others may change, which is not visible. Refuted without the link condition: a gradient with fill=url(#other gradient) makes the loop endless (C34_hang_refuted)."
 },
 "C35": {
  "status": "proved",
  "note": "For every writer of values. The style text parses back to exactly the joined attributes if no written value contains a semicolon; otherwise refuted (C35_semicolon_refuted)."
 },
 "C14": {
  "status": "proved",
  "note": "Termination, fixpoint, only the children of the first defs change, and no node referenced in the result is lost. Without a defs element the pass panics (C14_no_defs); group_defs always creates one."
 },
 "C13": {
  "status": "partial",
  "note": "C13_structure is the full structural claim for every run on a well-formed document with an svg element that does not abort (C13_no_svg: without svg element, a panic; C13_succeeds: no abort when no moved node carries a style link; C13_self_link_refuted: a pattern inside an element filled with it makes the program abort). C13_style_partial: the content of clipPath/marker/mask/pattern/symbol keeps every inheritable property under the stated conditions on the main defs; C13_main_defs_refuted, C13_defs_style_refuted, C13_current_color_refuted and C13_symbol_refuted show documents where the style is lost or changed (bugs in the code)."
 },
 "C21": {
  "status": "partial",
  "note": "Proved for documents in 'ready' form (unique ids, gradients have ids, acyclic same-kind hrefs, a gradient has either stops or an xlink:href, values resolved): no panic, users redirected, nothing else changes, all effective values and stops of the written document preserved. Refuted without these: stop-less gradient merged with one that inherits stops; missing id (lost fill or panic); own stops plus href (lost attribute, crosslink panic); focus."
 },
 "C22": {
  "status": "partial",
  "note": "Proved: no panic, only single-blur filters are removed, equal region/units/deviation, users redirected; if such filters have no other attributes the kept filter is identical. Refuted in general: other attributes of feGaussianBlur (its subregion) are not compared."
 },
 "C23": {
  "status": "partial",
  "note": "merge_gradients on [mready] documents: terminates, removes only gradients referenced once by xlink:href of a gradient, every remaining gradient keeps its values and stops in effect, other elements untouched. Missing: chains of mixed gradient kinds and hrefs to non-gradients, for which the claim is refuted."
 },
 "C42": {
  "status": "partial",
  "note": "For rready documents (gradients not nested, hrefs visible and between gradients, acyclic; hidden stop attributes only with default values): the pass ends, new gradients get ids that no element has, old gradients keep place and attributes, and every gradient keeps all effective values and its effective stop list in the saved document. Refuted in general: stops with currentColor lose the color of their gradient."
 },
 "C29": {
  "status": "partial",
  "note": "Proved for uready documents: resolve_use ends without panic, every replaceable use element is gone, and the picture (SpecPaint) and the contents of masks, patterns, markers and clip paths look the same for every meaning of units. Not for pairs excluded by `fits`; refuted in general: attributes on both elements (fill, transform, opacity, width), x/y with units, recursive use."
 },
 "C26": {
  "status": "partial",
  "note": "For documents satisfying gready the pass (with its preparation step, every option setting) ends without panic, removes only g elements, keeps the picture and the contents of masks/patterns/markers/clip paths (SpecPaint same_drawing), and every group left is needed. The excluded cases are refuted: display of the group overriding the child's, attributes meaningless on g, transform pushed onto a child used elsewhere, unclamped opacities, switch alternatives and conditions, transform pushed onto a nested svg."
 },
 "C27": {
  "status": "partial",
  "note": "For every document that satisfies sready (well-formed; transforms are parsed transforms; no transform on or, without a defs child, directly under a svg element; masks, patterns, markers and clip paths are not children of groups; no groups inside shapes): the pass ends without a panic, the drawing is the same and only groups without ids are added. C27_new_groups_partial: each of the new groups has two or more children in the result. C27_viewport_refuted and C27_ignored_refuted show two documents outside whose picture changes."
 },
 "C45": {
  "status": "proved",
  "note": "clean_doc is the composition of the models of all passes; for every option set and every document that passes the checks, the passes performed are exactly the table's enabled ones in the table's order (C45_pipeline); with all off only the mandatory ones (C45_all_off); the newline option and, unless paths are processed, the segment options have no effect on the document. C45_path_switches: inside the pass over the paths the options convert-segments, remove-unused-segments and apply-transform-to-paths switch the steps that they name."
 },
 "C08": {
  "status": "partial",
  "note": "Proved for every pass of the pipeline and for the whole of clean_doc: unique identities, no dangling link, unique attribute names. Unconditional except for three passes: resolve_use (no element shows itself; refuted without it), merge_gradients and regroup_gradient_stops (no gradient nested in a gradient / in the target of a gradient; the model of these two passes is not claimed to be faithful there). Not covered: 'no surviving link is redirected' (C21-C23 say what the passes that redirect links do). C08_tidy_partial needs no condition on intermediate documents: for every document that is tidy (SpecTidy: gradients link only to gradients, by xlink:href, and are not children of clip paths etc.; use elements show existing elements that are neither gradients nor filters nor defs, and not themselves; g has no xlink:href) and every option set."
 },
 "C28": {
  "status": "partial",
  "note": "SpecVisible defines what a document draws (a list of things with the elements they stand in, through use elements), what a mask/pattern/marker/clip path draws, and when two entries look the same. C28_visible_partial: under iready, what is drawn stays the same one by one, everything left keeps its other attributes, and gradients/filters left keep their children; C28_seen_stays_partial: every drawn thing stays. iready asks for links of the right kinds, no switch/tref, nothing used from outside inside of elements that are clipped or filtered away, and no cases of the 13 _refuted theorems, each of which shows one condition is needed."
 },
 "C44": {
  "status": "partial",
  "note": "Refuted in general by eight families of documents on which clean_doc panics (C44_*_refuted). Proved for documents without references (plain_document): for every option set, every svgdom parameter and every such document, cleaning ends and does not panic (C44_plain_partial). C44_prepared_partial: documents with links of every kind (class `prepared` and `solvable` of SpecPrepared, stated on the document alone), for option sets that only use the listed passes: cleaning ends with a document. Missing: documents with links under the other passes."
 },
 "C47": {
  "status": "partial",
  "note": "Every pass ends on every well-formed document (C47_pass); the passes over gradients exactly when gradients are not linked in a circle (C47_circle). Whole program: C47_clean_partial, which assumes that use elements are not recursive etc. (calm_run, see C08) and that gradients are still without circles when the two later gradient passes start (in_order_later); without these two passes only the input matters (C47_without_later_passes). In general the property is refuted: gradients linked in a circle (C47_circle_refuted, C47_linear_circle_hangs), and a use element that shows a gradient (C47_use_of_gradient_refuted). Removing duplicate gradients can itself link gradients in a circle, after which cleaning hangs although the input has no circle (C47_duplicates_refuted). C47_tidy_partial needs no condition on intermediate documents: a tidy document (SpecTidy) without circles of gradient links, with the removal of duplicate gradients off, or with both later gradient passes off; with all of them on it is refuted even for tidy documents (C47_tidy_duplicates_refuted)."
 },
 "C48": {
  "status": "partial",
  "note": "Holds for every accepted command line where \"-\" is not the out-file and, as in-file, comes with -c (C48_reads_and_writes_named_partial). In general refuted: with \"-\" as out-file the standard input is read and the in-file is overwritten (C48_dash_swaps, C48_input_overwritten_refuted), and `- out.svg` reads a file named \"-\" (C48_dash_input_refuted)."
 },
 "C12": {
  "status": "proved",
  "note": "One removal (C12_remove_element) and a whole run (C12_cleaned: with the option on no such element is in the output, whatever the other passes do)."
 },
 "C49": {
  "status": "partial",
  "note": "If invisible elements are not removed, the output of an acceptable document is acceptable (C49_acceptable_again_partial); with all options the checks still pass on the document in memory, and every reference is a link, the keyword none or a colour (C49_checks_pass_again_partial). The unrestricted claim is false of the code: C49_none_reference_refuted (xlink:href=\"none\" is written, and rejected when the output is read again). The parser is not modelled; C49_checks_of_parsed says what is assumed about the values it makes."
 },
 "C50": {
  "status": "proved",
  "note": "For every document, every option set and every behaviour of svgdom that is a parameter of the model; no hypothesis on the document. C50_new_kinds_by_option: groups are new only with group-by-style, linear gradients only with regroup-gradient-stops, paths only with convert-shapes and if the document has a basic shape."
 },
 "C51": {
  "status": "partial",
  "note": "C51_document_partial / C51_saved_partial: for every document of the class `prepared` (SpecPrepared: stated on the document alone; gradients are allowed) and for every option set that only uses the listed passes, the whole run - preparation, all the passes in the order of clean_doc, removal of repeated stops, transforms of gradients applied (twice), ungrouping three times - keeps the picture. C51_whole_partial: such a document, if its gradients are `solvable`, really is cleaned (no error, panic or endless loop), and the result has the same picture. C51_clean_partial: the same from any prepared form on. Missing: the other passes (merging and regrouping of gradients, paths, shapes, attributes, invisible elements, use), which have their own properties, and documents outside of the conditions, for which C26 and C27 have counterexamples; what the gradients themselves look like is the subject of C16-C24."
 },
 "C52": {
  "status": "proved",
  "note": "C52_text: for every place of the document, by what the input has there; C52_needless: on the output; C52_invisible: nodes of the input that are hopeless are gone (empty clip paths under the assumption that svgdom's iterator goes on after a removal; with the other behaviour of the iterator, parameter stops, this part is not claimed)."
 },
 "C53": {
  "status": "proved",
  "note": "For every document, every option set and every behaviour of svgdom that is a parameter of the model; no hypothesis except in C53_no_keywords (well formed, and keywords only where svgdom's parser makes them)."
 },
 "C54": {
  "status": "partial",
  "note": "Everything is proved for the final document but the claim on unreferenced ids, which the code refutes (C54_all_ids_referenced_refuted): ungroup_defs and remove_empty_defs run after the ids are removed and drop the references of the defs element. C54_version, C54_xlink_not_declared and C54_ids_referenced_partial ask for a well formed document and a calm run (C08)."
 },
 "C55": {
  "status": "partial",
  "note": "C55_references_read_again has no condition on the run but leaves out four passes; the _partial theorems cover all passes under C08's condition that the run is calm. That trimming ids needs only_svg_ids is C55_foreign_ids_refuted: trim_ids gives an SVG element the id that another element has. What the writer and the parser of svgdom do with an id is not modelled; resolves_to is what C55 takes for it."
 },
 "C56": {
  "status": "partial",
  "note": "The light passes of C51 on prepared documents, both attribute joining (exists t2) and no joining (C56_saved_partial). Missing: the passes that merge gradients or move stops between them (merge-gradients, regroup-gradient-stops, resolve-use, the removal of duplicate gradients: C21, C23, C42 have these pass by pass), of unused defs and of gradient attributes, and the geometry of the gradient (C16, C24). The colour between two stops is the linear mixture of their colours."
 },
 "C57": {
  "status": "partial",
  "note": "The light passes of C51 on prepared documents: C57_geometry_partial without apply-transform-to-gradients (all values the same), C57_vectors_partial and C57_saved_partial with it, on documents for which the preparation has an answer (solvable) and whose gradients are as the parser gives them (plain_gradients; a radial gradient that takes r over xlink:href is not scaled, see C24_hidden_radius_refuted). C57_whole_partial: with all premises together clean_doc has a result, and the picture, the ramps and the vectors are the same at once. Missing: the passes that merge gradients (C21, C23), and the removal of gradient attributes that the units make needless (C32)."
 }
}