{"id": "C01", "title": "Encoded text is lossless", "statement": "Turning a byte stream into the encoded text used by encoded node trees and reading that text back yields exactly the same bytes. (As stated for every stream this is false: a run of 66 or more 'A' characters is expanded with one character too many; it holds for every stream whose encoding contains no such run.)", "quantifier": "every byte sequence of length >= 2 (all lengths, all contents)", "why_tests_cant": "Byte streams are unbounded; the run-length compression has a rarely reached flush branch that random testing never hits.", "anchors": ["src/FastNoise/Base64.h: FastNoise::Base64::Encode", "src/FastNoise/Base64.h: FastNoise::Base64::Decode"]}
{"id": "C02", "title": "Decoding any text is memory safe and terminates", "statement": "Passing any NUL-terminated string as an encoded node tree never reads past the terminator, never writes outside the result buffer, always terminates, and yields a buffer whose length is determined by the text.", "quantifier": "every NUL-terminated character string, of any length and contents", "why_tests_cant": "The set of malformed strings is infinite; an out-of-bounds read may be silent in a test.", "anchors": ["src/FastNoise/Base64.h: FastNoise::Base64::Decode"]}
{"id": "C03", "title": "Encoded text is printable and embeddable", "statement": "Every encoded node tree string consists only of the characters A-Z a-z 0-9 + / = @, so it can be embedded in source code and in C strings; '=' can only occur at the end and the string is never longer than plain base64.", "quantifier": "every byte sequence of length >= 2", "why_tests_cant": "Must hold for every stream contents, including all run-length compression states.", "anchors": ["src/FastNoise/Base64.h: FastNoise::Base64::Encode"]}
{"id": "C04", "title": "Saved node graphs load back identically", "statement": "Serialising any well-formed acyclic node graph and deserialising the string yields a node graph isomorphic to the original: same node types, same variable values, same connections, the same sharing of nodes with several outgoing links, and same unconnected hybrid values.", "quantifier": "every finite acyclic node graph over the registered node types with fewer than 65536 distinct nodes, arbitrary member values", "why_tests_cant": "Graphs have unbounded size, depth and sharing; the pending node-end compression and back-references interact in ways examples cannot cover.", "anchors": ["src/FastNoise/Metadata.cpp: SerialiseNodeDataInternal", "src/FastNoise/Metadata.cpp: DeserialiseNodeDataInternal", "src/FastNoise/Metadata.cpp: Metadata::SerialiseNodeData", "src/FastNoise/Metadata.cpp: Metadata::DeserialiseNodeData"]}
{"id": "C05", "title": "Encoded node trees build the intended generator", "statement": "Creating a generator from the string of a serialised well-formed node graph succeeds and yields a generator graph in which every node has the type, variable values, hybrid values and sources of the original graph.", "quantifier": "every finite acyclic well-formed node graph, arbitrary member values", "why_tests_cant": "Unbounded graphs; defaults are omitted from the string so the result silently depends on two default tables agreeing.", "anchors": ["src/FastNoise/Metadata.cpp: DeserialiseSmartNodeInternal", "src/FastNoise/Metadata.cpp: FastNoise::NewFromEncodedNodeTree"]}
{"id": "C06", "title": "Loading any string is total", "statement": "Creating a generator, or a node graph, from an arbitrary string terminates, never reads outside the decoded bytes, the node registry or the table of already decoded nodes, and returns either null or a node.", "quantifier": "every NUL-terminated string", "why_tests_cant": "Adversarial inputs are unbounded; termination and bounds safety are universal claims.", "anchors": ["src/FastNoise/Metadata.cpp: DeserialiseSmartNodeInternal", "src/FastNoise/Metadata.cpp: DeserialiseNodeDataInternal", "src/FastNoise/Metadata.cpp: GetFromDataStream"]}
{"id": "C07", "title": "Loaded graphs are acyclic and type-correct", "statement": "Whatever string is loaded, a returned generator graph has no cycle (so evaluating it terminates and reference counting can free it), every connected source has a type the consuming member accepts, and every stored member index exists on the node.", "quantifier": "every NUL-terminated string", "why_tests_cant": "References in the text can name any earlier node; absence of cycles for all strings is not testable.", "anchors": ["src/FastNoise/Metadata.cpp: DeserialiseSmartNodeInternal", "include/FastNoise/Generators/Generator.h: SetSourceMemberVariable"]}
{"id": "C08", "title": "Loaded generators are complete", "statement": "A non-null generator created from an encoded string has all its required sources connected, so that generating from it never dereferences a missing source. (False as stated: a string that omits the source list is accepted and gives a node with missing sources.)", "quantifier": "every NUL-terminated string", "why_tests_cant": "Strings that are accepted but incomplete are a thin unreachable-by-roundtrip subset of inputs.", "anchors": ["src/FastNoise/Metadata.cpp: DeserialiseSmartNodeInternal"]}
{"id": "C09", "title": "Fix-up always yields a saveable acyclic graph or reports failure", "statement": "Serialising with fix-up enabled terminates on every node graph including cyclic ones; on success the (repaired) graph reachable from the root is acyclic, complete and type-correct; a graph that was already valid is not modified and gives the same string as without fix-up.", "quantifier": "every finite node graph, cyclic or not", "why_tests_cant": "Arbitrary cycles and sharing; termination is not testable.", "anchors": ["src/FastNoise/Metadata.cpp: SerialiseNodeDataInternal"]}
{"id": "C10", "title": "Serialisation fails exactly on incomplete graphs", "statement": "Without fix-up, serialising an acyclic node graph returns the empty string if and only if some node reachable from the root has a missing required source or member counts that do not match its type.", "quantifier": "every finite acyclic node graph", "why_tests_cant": "If-and-only-if over unbounded graphs.", "anchors": ["src/FastNoise/Metadata.cpp: Metadata::SerialiseNodeData"]}
{"id": "C11", "title": "Encoding is canonical", "statement": "Loading a serialised node graph and serialising it again gives the same string; and two node graphs that serialise to the same string are isomorphic.", "quantifier": "every finite acyclic well-formed node graph", "why_tests_cant": "Quantifies over pairs of unbounded graphs.", "anchors": ["src/FastNoise/Metadata.cpp: Metadata::SerialiseNodeData", "src/FastNoise/Metadata.cpp: Metadata::DeserialiseNodeData"]}
{"id": "C12", "title": "Shared nodes are stored once", "statement": "A node used by several consumers is written in full once and by a fixed-size reference afterwards, so the size of the encoding is linear in the number of distinct nodes and links, never exponential in the depth of sharing.", "quantifier": "every finite acyclic node graph", "why_tests_cant": "Sharing patterns are unbounded.", "anchors": ["src/FastNoise/Metadata.cpp: SerialiseNodeDataInternal"]}
{"id": "C13", "title": "Members unknown to the reader are skipped without desynchronisation", "statement": "A string written by a library version whose node types have more variables, sources or hybrids than the reader's still loads: surplus members are consumed and ignored and all other members get the written values.", "quantifier": "every node graph of the extended node types, every number of surplus members up to the encodable limit", "why_tests_cant": "Requires a family of library versions, not available to tests.", "anchors": ["src/FastNoise/Metadata.cpp: DeserialiseSmartNodeInternal", "src/FastNoise/Metadata.cpp: DeserialiseNodeDataInternal"]}
{"id": "C14", "title": "Node metadata lists are what each node declares", "statement": "For any set of node types registered one after another at start-up, the metadata of each type exposes exactly the groups, variables, sources and hybrids which that type declared, in declaration order, as long as no shared table exceeds 255 entries.", "quantifier": "every sequence of node type declarations", "why_tests_cant": "All types share global tables indexed by 8-bit ranges; correctness depends on every registration order and size.", "anchors": ["include/FastNoise/Metadata.h: Metadata::Vector", "src/FastNoise/Metadata.cpp: Metadata::Vector<T>::push_back"]}
{"id": "C15", "title": "Shipped node registry is consistent", "statement": "In the shipped registry node ids are exactly 0..46 in registration order (never the reserved id 255), every member index and source count fits the encoding's 5-bit field, table sizes match the reserved sizes, and each node's metadata defaults equal the defaults of a freshly created node. (The default claim is false for Distance To Point.)", "quantifier": "every registered node type and every member of it", "why_tests_cant": "The encoding drops default values so agreement of two separately written tables is a precondition of every saved string.", "anchors": ["src/FastNoise/FastSIMD_Build.inl: FASTNOISE_REGISTER_NODE", "include/FastNoise/Metadata.h: AddVariable, AddGeneratorSource, AddHybridSource", "include/FastNoise/Generators/BasicGenerators.h: MetadataT<DistanceToPoint>"]}
{"id": "C16", "title": "C API rejects out-of-range ids and indices", "statement": "Every C API metadata query given a node id or member index outside the valid range returns its documented error value instead of data about another node, for every int value. (False for node ids: ids are reduced modulo 256.)", "quantifier": "every 32-bit int id, variable, lookup, hybrid and enum index", "why_tests_cant": "2^32 ids times 2^32 indices.", "anchors": ["src/FastNoise/FastNoise_C.cpp: fnGetMetadataName and following queries"]}
{"id": "C17", "title": "C API setters change only the addressed member", "statement": "A successful C API set call stores the given value in the addressed member of the addressed node and nothing else; a failing call changes nothing.", "quantifier": "every node, every index, every value, every history of calls", "why_tests_cant": "Frame condition over all histories.", "anchors": ["src/FastNoise/FastNoise_C.cpp: fnSetVariableFloat", "src/FastNoise/FastNoise_C.cpp: fnSetNodeLookup", "src/FastNoise/FastNoise_C.cpp: fnSetHybridFloat"]}
{"id": "C18", "title": "A node lives exactly as long as someone holds it", "statement": "Under every sequence of smart-handle operations (create, copy, move, assign, reset, destroy, connect as a source) a node is never accessed after being freed, is never freed twice, and is freed exactly when its last owning handle disappears; if all handles are dropped and there was no cycle no node leaks.", "quantifier": "every history of handle operations over any number of nodes", "why_tests_cant": "Histories are unbounded and failures (use after free, leak) are silent.", "anchors": ["include/FastNoise/Utility/SmartNode.h: SmartNode", "include/FastNoise/Utility/SmartNode.h: SmartNode::Release"]}
{"id": "C19", "title": "Reference counts stay exact under concurrency", "statement": "When several threads copy and drop handles to the same node concurrently, the node is destroyed exactly once, by the thread whose release is last, and no thread touches it afterwards.", "quantifier": "every number of threads, every interleaving of atomic increments and decrements", "why_tests_cant": "Schedules cannot be enumerated by tests.", "anchors": ["include/FastNoise/Generators/Generator.inl: ReferencesFetchAdd", "include/FastNoise/Utility/SmartNode.h: SmartNode::Release"]}
{"id": "C20", "title": "C API node references", "statement": "Each node reference returned by the C API stays valid until it has been deleted once; deleting the last reference of an otherwise unused node destroys it. (The last part is false: the deletion only decrements the counter.)", "quantifier": "every history of C API calls", "why_tests_cant": "Leaks and double frees over unbounded histories.", "anchors": ["src/FastNoise/FastNoise_C.cpp: fnDeleteNodeRef", "src/FastNoise/FastNoise_C.cpp: fnNewFromMetadata", "src/FastNoise/FastNoise_C.cpp: fnNewFromEncodedNodeTree"]}
{"id": "C21", "title": "Node memory blocks never overlap", "statement": "For every history of node allocations and deallocations, blocks that are live at the same time are disjoint, lie inside a pool owned by the allocator, have the requested alignment, and freeing a block releases it to the pool that served it.", "quantifier": "every sequence of allocate and free requests of any sizes and power-of-two alignments up to the pool size", "why_tests_cant": "Allocation histories are unbounded; overlap corrupts memory silently.", "anchors": ["src/FastNoise/SmartNode.cpp: SmartNodeManagerPool::TryAlloc", "src/FastNoise/SmartNode.cpp: SmartNodeManagerPool::Free", "src/FastNoise/SmartNode.cpp: SmartNodeManager::Allocate"]}
{"id": "C22", "title": "Lock-free pool allocation is safe under every interleaving", "statement": "Concurrent allocations and frees on one pool, in any interleaving of their atomic steps, hand out pairwise disjoint in-bounds live blocks; at least one of the competing operations makes progress.", "quantifier": "any number of threads, every interleaving of the atomic loads and compare-and-swaps", "why_tests_cant": "Interleavings of CAS loops are not reproducible in tests; ABA hazards need a proof.", "anchors": ["src/FastNoise/SmartNode.cpp: SmartNodeManagerPool::TryAlloc", "src/FastNoise/SmartNode.cpp: SmartNodeManagerPool::Free"]}
{"id": "C23", "title": "Empty pools are reclaimed only when unused", "statement": "In sequential use, a pool is returned to the system only when no live block lies in it, at least one empty pool is retained, and every pool list operation preserves all live blocks; with concurrent allocation in progress the removal can free a pool another thread is traversing (refuted).", "quantifier": "every allocation history; for the concurrent part one exhibited schedule", "why_tests_cant": "Depends on histories/schedules.", "anchors": ["src/FastNoise/SmartNode.cpp: SmartNodeManagerPool::RemoveEmptyPool", "src/FastNoise/SmartNode.cpp: MarkForRemoval"]}
{"id": "C24", "title": "Grid output element (x,y,..) is the value at that grid position", "statement": "GenUniformGrid2D/3D/4D write, for each grid index, exactly the value of the generator at offset + index*step for the element's own coordinates, row-major with x fastest, independent of the SIMD width and of how rows straddle SIMD batches.", "quantifier": "all positive x,y,z,w counts whose product fits in int, all SIMD widths, all generators, offsets, steps and seeds", "why_tests_cant": "The row-wrap arithmetic on SIMD index vectors must be right for every combination of counts and widths, including counts smaller than the width.", "anchors": ["include/FastNoise/Generators/Generator.inl: GenUniformGrid2D", "include/FastNoise/Generators/Generator.inl: GenUniformGrid3D", "include/FastNoise/Generators/Generator.inl: GenUniformGrid4D", "include/FastNoise/Generators/Generator.inl: AxisReset"]}
{"id": "C25", "title": "Bulk generation writes exactly the caller's buffer", "statement": "Each bulk generation call writes every element of the output buffer and no memory outside it, and reads position arrays only within the given count.", "quantifier": "all positive counts and all SIMD widths", "why_tests_cant": "Buffer overruns at tails can be silent; every count residue matters.", "anchors": ["include/FastNoise/Generators/Generator.inl: StoreRemaining", "include/FastNoise/Generators/Generator.inl: LoadRemaining", "include/FastNoise/Generators/Generator.inl: GenPositionArray2D"]}
{"id": "C26", "title": "Returned min/max is the true range of the output", "statement": "The min and max returned by a bulk generation call are exactly the minimum and maximum of the values written (for non-NaN values).", "quantifier": "all counts, SIMD widths and all generator outputs", "why_tests_cant": "Partial tail batches are folded in by separate code; holds for all counts.", "anchors": ["include/FastNoise/Generators/Generator.inl: StoreRemaining, LoadRemaining", "include/FastNoise/Generators/Generator.h: OutputMinMax"]}
{"id": "C27", "title": "Position arrays are evaluated pointwise", "statement": "GenPositionArray2D/3D/4D write at index i the value at (xPos[i]+xOffset, ...), for every count, independent of the other entries and of the SIMD width.", "quantifier": "all positive counts, SIMD widths, arrays and offsets", "why_tests_cant": "Tail handling uses overlapping reloads; all residues matter.", "anchors": ["include/FastNoise/Generators/Generator.inl: GenPositionArray2D", "include/FastNoise/Generators/Generator.inl: GenPositionArray3D", "include/FastNoise/Generators/Generator.inl: GenPositionArray4D"]}
{"id": "C28", "title": "Bulk, single and tileable generation agree", "statement": "A grid element equals the single-point query at the same position with the same seed; batch results of a node graph never mix lanes.", "quantifier": "all generators built from lane-wise operations, all positions and seeds", "why_tests_cant": "Lane mixing bugs appear only for particular lane contents.", "anchors": ["include/FastNoise/Generators/Generator.inl: GenSingle2D", "include/FastNoise/Generators/Generator.inl: GenUniformGrid2D"]}
{"id": "C29", "title": "Tileable output wraps seamlessly", "statement": "The position sampled by GenTileable2D for column x+xSize is the one for column x (and likewise for rows), neighbouring columns including across the seam are equidistant, so the image tiles without a seam.", "quantifier": "all sizes, step sizes and positions (real arithmetic)", "why_tests_cant": "Universal geometric identity.", "anchors": ["include/FastNoise/Generators/Generator.inl: GenTileable2D"]}
{"id": "C30", "title": "Empty requests are harmless", "statement": "Bulk generation with a zero count writes nothing and returns. (False: a zero total reads the output buffer, and a zero row length does not terminate.)", "quantifier": "all requests with a zero count", "why_tests_cant": "A non-terminating loop cannot be observed as such by a test.", "anchors": ["include/FastNoise/Generators/Generator.inl: GenUniformGrid2D", "include/FastNoise/Generators/Generator.inl: AxisReset"]}
{"id": "C31", "title": "Lattice hashing is injective per coordinate and seed", "statement": "For fixed other inputs, different seeds or different coordinates along one axis always give different lattice hashes before truncation, for all 2^32 values; the hash of a neighbouring cell differs from the cell's own hash and does not depend on the order in which axes are combined. (After truncation collisions are systematic: gradient selection drops the top bit, so complementary hashes collide, and value noise squares the hash, so h and -h collide.)", "quantifier": "all 32-bit seeds and lattice coordinates", "why_tests_cant": "2^64 pairs.", "anchors": ["include/FastNoise/Generators/Utils.inl: HashPrimes", "include/FastNoise/Generators/Utils.inl: HashPrimesHB"]}
{"id": "C32", "title": "All SIMD levels choose the same gradients", "statement": "The gradient contribution computed for a lattice point by the AVX-512, AVX2/SSE and scalar code paths is the same function of the hash and the offsets.", "quantifier": "all 2^32 hashes and all offsets", "why_tests_cant": "Only one instruction set is exercised on a given machine; all hashes.", "anchors": ["include/FastNoise/Generators/Utils.inl: GetGradientDotPerlin", "include/FastNoise/Generators/Utils.inl: GetGradientDotCommon", "include/FastNoise/Generators/Utils.inl: GetGradientDotSimplex"]}
{"id": "C33", "title": "Value noise stays in its configured range", "statement": "Value noise with output range [min,max] returns values in [min,max] in every dimension.", "quantifier": "all seeds, positions and ranges (real arithmetic)", "why_tests_cant": "All positions and 2^32 seeds.", "anchors": ["include/FastNoise/Generators/Value.inl: Value"]}
{"id": "C34", "title": "Lattice noises are continuous across cell borders", "statement": "Approaching the border between two lattice cells from either side, Value and Perlin noise tend to the same value, in 2D, 3D and 4D, so no grid-aligned seams are visible.", "quantifier": "all seeds and all cell borders", "why_tests_cant": "Limits at all of infinitely many borders.", "anchors": ["include/FastNoise/Generators/Value.inl: Value", "include/FastNoise/Generators/Perlin.inl: Perlin"]}
{"id": "C35", "title": "Perlin noise is neutral on lattice points and stays in its output range", "statement": "Perlin noise returns the midpoint of its output range at integer lattice points and its output stays within the configured output range everywhere. (True in 2D. In 3D and 4D the range is exceeded at some positions; there the deviation from the midpoint is at most 1.5 times the nominal one.)", "quantifier": "all seeds, positions, frequencies and output ranges (real arithmetic)", "why_tests_cant": "All positions.", "anchors": ["include/FastNoise/Generators/Perlin.inl: Perlin"]}
{"id": "C36", "title": "Cellular distance selects true order statistics", "statement": "Cellular Distance's distance i is the i-th smallest of the distances to all feature points of the surrounding cells, whatever the order in which cells are visited.", "quantifier": "all seeds, positions, distance functions and index choices", "why_tests_cant": "Permutations of 9/27/81 candidates with ties.", "anchors": ["include/FastNoise/Generators/Cellular.inl: CellularDistance"]}
{"id": "C37", "title": "Cellular value selects the k-th nearest cell's value", "statement": "Cellular Value with index k returns the value of the cell with the k-th smallest distance, and each returned value belongs to one of the surrounding cells.", "quantifier": "all seeds, positions, distance functions and indices", "why_tests_cant": "Permutations of candidates with ties.", "anchors": ["include/FastNoise/Generators/Cellular.inl: CellularValue"]}
{"id": "C38", "title": "Cellular return types compute what they name", "statement": "Index0, Index0Add1, Index0Sub1, Index0Mul1 and Index0Div1 return respectively the distance, sum, difference, product and quotient of the selected distances. (With the Euclidean distance and equal indices the square root is applied twice; differences are absolute.; in floating point a zero distance gives NaN with the Euclidean distance.)", "quantifier": "all distances, indices and return types", "why_tests_cant": "All combinations of return type, function and index.", "anchors": ["include/FastNoise/Generators/Cellular.inl: CellularDistance GetReturn"]}
{"id": "C39", "title": "Blend nodes compute their named function lane by lane", "statement": "Add, Subtract, Multiply, Divide, Modulus, Min, Max, Fade, Smooth Min, Smooth Max, Power nodes return the named function of their operands' values at the same position and seed; a hybrid operand given as a number behaves like a constant source.", "quantifier": "all operand generators, positions, seeds and constants", "why_tests_cant": "Universally quantified over generators.", "anchors": ["include/FastNoise/Generators/Blends.inl", "include/FastNoise/Generators/Generator.inl: GetSourceValue"]}
{"id": "C40", "title": "Smooth minimum and maximum bounds", "statement": "Smooth Min is never greater than the minimum of its operands and at most smoothness/6 below it, equal to it when operands differ by at least the smoothness; it is symmetric, and Smooth Max is its mirror image.", "quantifier": "all operand values and smoothness values (real arithmetic)", "why_tests_cant": "All real operands.", "anchors": ["include/FastNoise/Generators/Blends.inl: MinSmooth", "include/FastNoise/Generators/Blends.inl: MaxSmooth"]}
{"id": "C41", "title": "Fade interpolates between its sources", "statement": "Fade returns A when the fade value is at the minimum, B at the maximum, always a value between A and B, and is monotone in the fade value for the three interpolation modes; a degenerate fade range never divides by zero.", "quantifier": "all operand values, fade values and ranges", "why_tests_cant": "All real operands and ranges.", "anchors": ["include/FastNoise/Generators/Blends.inl: Fade"]}
{"id": "C42", "title": "Integer power", "statement": "Pow Int returns the exact mathematical power for every configured exponent. (False for exponents 0 and 1 and negatives: the square is returned.)", "quantifier": "all exponents and base values", "why_tests_cant": "All exponents and reals.", "anchors": ["include/FastNoise/Generators/Blends.inl: PowInt"]}
{"id": "C43", "title": "Remap maps the input range onto the output range", "statement": "Remap maps fromMin to toMin, fromMax to toMax, is affine between, and when clamping is enabled with toMin <= toMax the result always lies within the output range. (With an inverted output range toMin > toMax and clamping it returns toMax whatever the source.)", "quantifier": "all ranges and values (real arithmetic)", "why_tests_cant": "All reals.", "anchors": ["include/FastNoise/Generators/Modifiers.inl: Remap"]}
{"id": "C44", "title": "Terrace is monotone and quantises", "statement": "Terrace with zero smoothness returns multiples of the step; with smoothness it stays within one step of the source and is monotone in the source.", "quantifier": "all step counts, smoothness values and sources", "why_tests_cant": "All reals.", "anchors": ["include/FastNoise/Generators/Modifiers.inl: Terrace"]}
{"id": "C45", "title": "Ping-pong and output range of fractals", "statement": "PingPong always returns values between its bounds; fractal FBm and Ridged of a source bounded by [-1,1] are bounded by the sum of gain^i over the octaves (hence by 1/(1-gain) for a gain in [0,1)), and one octave of FBm is the source itself.", "quantifier": "all octaves, gains, lacunarities, weighted strengths and sources", "why_tests_cant": "All parameters and octave counts.", "anchors": ["include/FastNoise/Generators/Fractal.inl: FractalFBm", "include/FastNoise/Generators/Fractal.inl: FractalRidged", "include/FastNoise/Generators/Modifiers.inl: PingPong"]}
{"id": "C46", "title": "Fractal octaves follow the documented recurrence", "statement": "FBm with n octaves is the sum over i<n of the source evaluated with seed+i at the position scaled by lacunarity^i, weighted by gain^i when weighted strength is zero (it is not normalised); with weighted strength each octave is additionally attenuated by the previous octave's value. Ridged does the same with the folded octave 1-2|x|.", "quantifier": "all octave counts, parameters, sources, positions and seeds", "why_tests_cant": "Unbounded octaves; all sources.", "anchors": ["include/FastNoise/Generators/Fractal.inl: FractalFBm"]}
{"id": "C47", "title": "Domain modifiers transform coordinates as named", "statement": "Domain Scale, Offset, Axis Scale, Add/Remove Dimension, Domain Rotate and Rotate Plane evaluate the source at exactly the transformed coordinates; Domain Rotate preserves distances and its 2D shortcut agrees with the 3D rotation (except for a pitch of half a turn, where the shortcut is skipped); Rotate Plane preserves distances up to a relative error of 1e-6 from its rounded literals.", "quantifier": "all sources, angles, positions and parameters", "why_tests_cant": "All angles and positions.", "anchors": ["include/FastNoise/Generators/Modifiers.inl: DomainRotate, DomainScale, DomainOffset, DomainAxisScale, AddDimension, RemoveDimension, DomainRotatePlane"]}
{"id": "C48", "title": "Seed offsets compose additively", "statement": "Seed offset nodes and the seed offset member add to the seed modulo 2^32, so nested offsets compose and +k followed by -k is the identity; each node applies its own offset exactly once. (The last part is false for domain warp nodes, which apply it twice or not at all.)", "quantifier": "all seeds, offsets, nestings", "why_tests_cant": "All 32-bit values with wrap-around.", "anchors": ["include/FastNoise/Generators/Modifiers.inl: SeedOffset", "include/FastNoise/Generators/DomainWarp.inl", "include/FastNoise/Generators/DomainWarpSimplex.inl"]}
{"id": "C49", "title": "Caching is transparent", "statement": "A Generator Cache node returns, for every sequence of queries on a thread and any number of cache nodes, exactly what its source would return, provided that no cache lies below another cache, that nodes are not changed between the queries, and that the source does not tell 0 from -0. Each of the three provisos is necessary.", "quantifier": "every query history on a thread, every set of cache nodes", "why_tests_cant": "Cache state is shared between nodes and depends on the whole history.", "anchors": ["include/FastNoise/Generators/Modifiers.inl: GeneratorCache"]}
{"id": "C50", "title": "Packed colours are well-formed", "statement": "Convert RGBA8 always returns a packed opaque grey colour whose intensity is the clamped and linearly mapped source value, monotone in the source.", "quantifier": "all source values and ranges", "why_tests_cant": "All reals.", "anchors": ["include/FastNoise/Generators/Modifiers.inl: ConvertRGBA8"]}
{"id": "C51", "title": "Node evaluation is deterministic and position-wise", "statement": "For graphs without cache nodes, the value of a node graph at a position depends only on the graph, the seed and the position (and on never-written local registers in CellularValue and CellularLookup, which show only when no cell's distance is below infinity): it is independent of previous queries, neighbouring positions, the other lanes' seeds, the output buffer and the SIMD width.", "quantifier": "all node graphs, seeds, positions", "why_tests_cant": "All graphs.", "anchors": ["include/FastNoise/Generators/Generator.h: Generator::Gen", "include/FastNoise/Generators/Generator.inl: GetSourceValue"]}
{"id": "C52", "title": "Domain warp displacement is bounded", "statement": "Domain warp moves each coordinate by at most the warp amplitude per axis for the gradient variant; warp with zero amplitude is the identity on the source. (The documented Euclidean bound is false.)", "quantifier": "all seeds, positions, amplitudes", "why_tests_cant": "All seeds and positions.", "anchors": ["include/FastNoise/Generators/DomainWarp.inl: DomainWarpGradient"]}
{"id": "C53", "title": "Domain warp fractals accumulate as named", "statement": "The progressive fractal feeds each octave the previously warped position, the independent fractal feeds each octave the original position; amplitude is scaled by gain and frequency by lacunarity per octave with a new seed.", "quantifier": "all octave counts, parameters and warps", "why_tests_cant": "Unbounded octave counts.", "anchors": ["include/FastNoise/Generators/DomainWarpFractal.inl"]}
{"id": "C54", "title": "Editor messages are delivered once and intact", "statement": "A message accepted by the node editor IPC channel while the other side has nothing left to read is received by that side's next poll exactly once, with its type and byte-identical, provided it polls with a large enough buffer before the next message is accepted; oversized messages are rejected and polls without a buffer return without disturbing the channel; a sender that dies before completing a send is not noticed. (A poll with a too small buffer loses the message, an unread message is overwritten by the next one, and 256 unread messages look like none.)", "quantifier": "all message contents and lengths, every history of setups, releases, sends and polls of any number of processes, every crash point of a send", "why_tests_cant": "All histories including counter wrap-around.", "anchors": ["tools/NodeEditorIpc/NodeEditorIpc_C.cpp: fnEditorIpcSendSelectedNode", "tools/NodeEditorIpc/NodeEditorIpc_C.cpp: fnEditorIpcPollMessage"]}
{"id": "C55", "title": "Preview work queues", "statement": "The preview generation queue delivers queued jobs in FIFO order, each at most once, to at most one worker; after shutdown is requested every waiting worker wakes up; results of an outdated version pushed after the version changed are dropped.", "quantifier": "all numbers of workers and interleavings", "why_tests_cant": "Schedules.", "anchors": ["tools/NodeEditor/MultiThreadQueues.h: GenerateQueue", "tools/NodeEditor/MultiThreadQueues.h: CompleteQueue"]}
{"id": "C56", "title": "Display names are safe and faithful", "statement": "Formatted node names are never empty for a non-empty name, contain the original characters in order with only spaces inserted or a group removed, and member names get exactly the axis prefix of their dimension.", "quantifier": "all node names, groups and dimension indices", "why_tests_cant": "All strings.", "anchors": ["src/FastNoise/Metadata.cpp: FormatMetadataNodeName", "src/FastNoise/Metadata.cpp: FormatMetadataMemberName"]}
{"id": "C57", "title": "Derived members always agree with the values they are derived from", "statement": "For every sequence of setter calls, in any order, the derived quantities cached inside a node (output scale of ranged nodes, rotation matrix of Domain Rotate, step reciprocal of Terrace) are those determined by the last value set for each setting: the final behaviour depends only on the last value of each setting, not on the history. (In floating point this fails for the output range: setting the minimum to 1e8 and back to -1 collapses the range to a single value.)", "quantifier": "all sequences of setter calls and all argument values", "why_tests_cant": "the histories of setter calls are unbounded and the cached values depend on the whole history", "anchors": ["include/FastNoise/Generators/BasicGenerators.h: VariableRange::SetOutputMin/SetOutputMax", "include/FastNoise/Generators/Modifiers.h: DomainRotate::SetYaw/SetPitch/SetRoll, Terrace::SetStepCount/SetSmoothness"]}
{"id": "C58", "title": "The nearest feature point is found although only the surrounding cells are searched", "statement": "Cellular noise with the Euclidean distance, a grid jitter in [-1,1] and no size jitter reports at index 0 the distance to the nearest feature point of the whole infinite lattice: no feature point of a cell outside the 3^n cells searched is nearer (in 3D up to 1.1e-6, because the constant 0.396144 is rounded up).", "quantifier": "all seeds, positions within the integer range, grid jitters in [-1,1] and all lattice cells", "why_tests_cant": "a missed nearer point needs an unlucky combination of hashes and a position near a cell corner, and there are infinitely many cells and positions", "anchors": ["include/FastNoise/Generators/Cellular.inl: kJitter2D, kJitter3D, kJitter4D, CellularDistance::Gen"]}
{"id": "C59", "title": "Simplex noise is a sum over all lattice vertices, so it has no seams", "statement": "2D Simplex, 2D SuperSimplex and 3D SuperSimplex noise at a position is the sum, over all vertices of the (skewed) lattice, of the vertex's gradient ramp times (r^2 - d^2)^4 inside the radius r around the vertex and zero outside, rescaled to the output range: the few vertices the code visits leave out none whose bump reaches the position. Hence the noise is a continuous function of the position, across all cell borders, and takes the middle of the output range at the lattice vertices. The rounded float constants of the code change the 2D result by at most 1/10000 of the output range.", "quantifier": "all positions, seeds, frequencies, output ranges, SIMD levels and lattice vertices", "why_tests_cant": "a missed vertex shows only near particular cell borders and for particular hashes; infinitely many positions and vertices", "anchors": ["include/FastNoise/Generators/Simplex.inl: Simplex::Gen 2D, SuperSimplex::Gen 2D and 3D", "include/FastNoise/Generators/Simplex.h"]}
{"id": "C60", "title": "Simplex noise in 3D and 4D adds exactly the vertices it documents", "statement": "Simplex noise in 3D and 4D is the sum of the bumps of the n+1 vertices of the simplex (of the division of the skewed unit cell into n! simplices) that contains the position, each vertex once with its own hash, gradient, offset and falloff. SuperSimplex 4D is the sum over 16 distinct vertices that include every vertex at squared distance below 18/25; at most one vertex within the falloff radius (squared radius 4/5) is left out, which changes the result by at most 1/5000 of the output range, so the output never jumps by more than 1/2500 of it. All are neutral at the lattice vertices.", "quantifier": "all positions, seeds, frequencies, output ranges, skew factors and SIMD levels", "why_tests_cant": "infinitely many positions; ties and cell borders are measure-zero", "anchors": ["include/FastNoise/Generators/Simplex.inl: Simplex::Gen 3D and 4D, SuperSimplex::Gen 4D"]}
{"id": "C61", "title": "Simplex noise is continuous in every dimension", "statement": "Simplex and SuperSimplex noise is a continuous function of the position in 2D, 3D and 4D. (False of the code for Simplex 3D and 4D, whose squared falloff radius 0.6 exceeds the squared distance 0.5 to which a vertex of the neighbouring simplex can come, and for SuperSimplex 4D, which leaves out a vertex at squared distance 0.72 < 0.8.)", "quantifier": "all positions and seeds", "why_tests_cant": "continuity is a statement about limits; the jumps are small and lie on lower-dimensional borders", "anchors": ["include/FastNoise/Generators/Simplex.inl: kFalloffRadiusSquared"]}
{"id": "C62", "title": "Every SIMD level warps by the same vector at a simplex vertex", "statement": "For each vectorization scheme (gradient outer product, orthogonal gradient matrix) and dimension, the vector that a lattice vertex with a given hash adds to a simplex domain warp is the same at every SIMD level: it is the documented matrix of the hash (gradient times outer vector; two or three orthogonal rows) applied to the offset of the position and scaled by the falloff. Hence DomainWarpSimplex and DomainWarpSuperSimplex return the same position at every level. (False of the code for the orthogonal matrix in 4D, where AVX512, AVX2 and the other levels apply three different matrices.)", "quantifier": "all hashes, offsets, falloffs, accumulated vectors, SIMD levels, schemes, positions and seeds", "why_tests_cant": "2^31 hashes times all offsets and SIMD levels; each level needs its own machine", "anchors": ["include/FastNoise/Generators/DomainWarpSimplex.inl: ApplyVectorContribution, ApplyGradientOuterProductVectorProductSimplex/Common, ApplyOrthogonalGradientMatrixVectorProductSimplex/Common"]}
{"id": "C63", "title": "The orthogonal gradient matrix turns the offset without distorting it", "statement": "With the orthogonal gradient matrix scheme the vector of a vertex has a length that depends only on the length of the offset and the falloff, not on the hash or the direction of the offset (up to float rounding of the table entries): each matrix is a multiple of an orthogonal matrix. (False of the code in 4D: for half of the permutations the matrix is singular.)", "quantifier": "all hashes, offsets and falloffs", "why_tests_cant": "a universally quantified metric statement over all hashes and vectors", "anchors": ["include/FastNoise/Generators/DomainWarpSimplex.inl: ApplyOrthogonalGradientMatrixVectorProductSimplex, ApplyOrthogonalGradientMatrixVectorProductCommon"]}
{"id": "C64", "title": "The 3D reorientation of the outer product warp keeps lengths", "statement": "The reflection that the 3D simplex warps apply to the summed outer product vector, to bring it into the coordinates of the caller, keeps the length of every vector. (Holds of SuperSimplex; false of Simplex, whose constant is -2/2 instead of -2/3.)", "quantifier": "all vectors", "why_tests_cant": "universally quantified over real vectors", "anchors": ["include/FastNoise/Generators/DomainWarpSimplex.inl: DomainWarpSimplex::Warp 3D (warp vector reflection), DomainWarpSuperSimplex::Warp 3D"]}
{"id": "C65", "title": "A simplex domain warp moves the position by the sum of the vertex vectors", "statement": "DomainWarpSimplex and DomainWarpSuperSimplex evaluate their source at the position moved by amplitude times per-axis scale times a vector that depends only on the warped seed and the position times frequency. In 2D (both) and in 3D (SuperSimplex) that vector is the sum over all lattice vertices of the vertex vector, zero outside the falloff radius, so the displacement is a continuous function of the position. Zero amplitude leaves the source unchanged. The seed offset changes the warp only, not the source (it is added twice by DomainWarpSimplex, once by DomainWarpSuperSimplex). The fractal variants add the octaves of it as the documentation of the fractal warps says.", "quantifier": "all positions, seeds, seed offsets, frequencies, amplitudes, axis scales, schemes, sources and SIMD levels", "why_tests_cant": "infinitely many positions; seams lie on measure-zero borders", "anchors": ["include/FastNoise/Generators/DomainWarpSimplex.inl: Warp", "include/FastNoise/Generators/DomainWarp.inl: GenT"]}
{"id": "C66", "title": "A simplex domain warp moves the position by at most the amplitude", "statement": "DomainWarpSimplex and DomainWarpSuperSimplex evaluate their source at a position that differs from the queried one, on each axis, by the amplitude times the scale of the axis times the component of one vector whose Euclidean length is at most 1, up to a small explicit tolerance. (False of DomainWarpSimplex in 3D with the gradient outer product, where it reaches 1.7 times the amplitude; with the orthogonal matrix in 3D DomainWarpSuperSimplex reaches only half of it.)", "quantifier": "all positions, seeds, seed offsets, frequencies, amplitudes and axis scales", "why_tests_cant": "a maximum over a continuum of positions and all assignments of vertex vectors: sampling only gives lower bounds of it", "anchors": ["include/FastNoise/Generators/DomainWarpSimplex.inl: Warp (kBounding constants), DomainWarpSimplex::Warp 3D (warp vector reflection)"]}
{"id": "C67", "title": "Simplex and SuperSimplex stay in the documented output range", "statement": "The value of a Simplex or SuperSimplex node lies between Output Min and Output Max, up to a small explicit tolerance on each side (a part of half the range: 1/500 in 2D, 1/100 in 3D, 1/40 for Simplex 4D and 1/18 for SuperSimplex 4D).", "quantifier": "all positions, seeds, seed offsets, frequencies, output ranges and SIMD levels", "why_tests_cant": "a maximum over a continuum of positions and all gradient assignments: sampling only gives lower bounds of it", "anchors": ["include/FastNoise/Generators/Simplex.inl: Simplex::Gen, SuperSimplex::Gen (kBounding constants)"]}
{"id": "C68", "title": "The SIMD level changes a node graph's value only by rounding", "statement": "Evaluating one node graph at one seed and position gives the same value at every SIMD level the library may select at run time and at every register width, if arithmetic is exact: the different code paths (table lookups, bit tricks, fast square root) differ by floating point rounding only.", "quantifier": "all node graphs, seeds, positions, pairs of SIMD levels and register widths", "why_tests_cant": "the graphs are unbounded trees, and a test machine exercises only the levels its own CPU has", "anchors": ["include/FastNoise/Generators/Utils.inl: GetGradientDot*", "include/FastNoise/Generators/Simplex.inl: Apply*VectorProduct*", "include/FastNoise/Generators/*.inl: Gen", "include/FastNoise/FastNoise.h: New(FeatureSet maxFeatureSet)"]}
{"id": "C69", "title": "The 3D preview mesh has exactly one quad per grid edge that meets the surface", "statement": "The index buffer built for a chunk of the 3D surface preview is, in order, two triangles for each grid edge of the chunk whose two end densities lie on different sides of the surface value, and nothing else. The two triangles split the polygon of the four cells around the edge along a diagonal and face from the solid to the air side; every index refers to an existing vertex; no vertex is stored twice or left unused; skipping a chunk because of the reported minimum and maximum never loses a quad.", "quantifier": "all density fields, surface values, chunk sizes, chunk positions, vertex brightness functions and min/max reports that bound the field", "why_tests_cant": "the density fields of a chunk are unbounded many, and the table of dual points has 256 cases that meet in arbitrary combinations", "anchors": ["tools/NodeEditor/MeshNoisePreview.cpp: BuildDmc3DMesh, DmcGetVertIndex", "tools/NodeEditor/util/DmcTable.inl: kDualPointsList"]}
{"id": "C70", "title": "The 3D preview surface has no holes", "statement": "Take the polygons of all grid edges that meet the surface. Their sides can be paired: the two sides of a pair are different, join the same two vertices, in opposite directions. So the surface has no free boundary and its polygons are consistently oriented, also in cells with ambiguous sign patterns and across chunks. Around every vertex of a cell the polygons form one piece: any two of them are joined by a chain of polygons that share sides at the vertex.", "quantifier": "all density fields on the infinite grid and all surface values", "why_tests_cant": "a hole needs a particular combination of the 256 sign patterns in neighbouring cells; there are 2^12 combinations for each of the three kinds of face and fields have unboundedly many faces", "anchors": ["tools/NodeEditor/MeshNoisePreview.cpp: BuildDmc3DMesh, DmcGetVertIndex", "tools/NodeEditor/util/DmcTable.inl: kDualPointsList"]}
{"id": "C71", "title": "Every vertex of the 3D preview lies in its cell, at the mean of surface points", "statement": "Every vertex position is the chunk position plus its cell plus the mean of at least three points at which edges of the cell meet the surface under linear interpolation, so it lies in the closed cell; it averages exactly the crossing points of those edges of the cell whose polygons have this vertex.", "quantifier": "all density fields, surface values, chunk sizes and positions", "why_tests_cant": "the positions are real valued functions of eight densities and of one of 256 table rows", "anchors": ["tools/NodeEditor/MeshNoisePreview.cpp: BuildDmc3DMesh, DmcGetVertIndex", "tools/NodeEditor/util/DmcTable.inl: kDualPointsList"]}
{"id": "C72", "title": "Building the 3D preview mesh uses only generated densities", "statement": "The mesh depends on no value outside of the (SIZE+4)^3 densities generated for the chunk, neither for the surface nor for the shading derivative.", "quantifier": "all density arrays, surface values, chunk sizes, offsets of the derivative", "why_tests_cant": "an out of bounds read depends on which cells the surface passes and need not crash", "anchors": ["tools/NodeEditor/MeshNoisePreview.cpp: BuildDmc3DMesh, DmcGetVertIndex", "tools/NodeEditor/util/DmcTable.inl: kDualPointsList"]}
{"id": "C73", "title": "The block preview has exactly one square per face between solid and air", "statement": "The block mesh of a preview chunk has, in order, for each solid cell of the chunk and each of its six faces with an air cell behind it, two triangles that split the unit square of the face, turned outward, and no other vertex or triangle. Each corner is darkened by the number of solid cells among the three cells around the corner in the layer in front of the face. The reported heights are those of the lowest air and the highest solid cell; skipping a chunk because of the reported minimum and maximum changes none of this.", "quantifier": "all density fields, surface values, chunk sizes, chunk positions, light constants and min/max reports that bound the field", "why_tests_cant": "the field is arbitrary; the occlusion of a face depends on nine cells in six orientations", "anchors": ["tools/NodeEditor/MeshNoisePreview.cpp: BuildBloxel3DMesh, BloxelAddQuadAO"]}
{"id": "C74", "title": "The height map preview is one quad per grid square, without cracks", "statement": "The height map mesh of a preview chunk has for each of its SIZE x SIZE squares two triangles that split the quad over the square, whose corners lie at the noise values of the grid points; the corner at a grid point is the same in every square around it; only the (SIZE+1)^2 generated values are used.", "quantifier": "all noise values, multipliers, chunk sizes and positions", "why_tests_cant": "the noise values are arbitrary reals and the choice of the diagonal depends on them", "anchors": ["tools/NodeEditor/MeshNoisePreview.cpp: BuildHeightMap2DMesh"]}
