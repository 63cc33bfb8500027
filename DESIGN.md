# Formal model of huira-render/huira in Rocq (Coq 8.16.1)

## Method

* The code under `/repo` is read as text; nothing of it is built or run. Each topic has up to four kinds of file in
  `rocq/theories/`: `XModel.v` (total executable Gallina functions, each with the `/repo` file and lines it models
  and the simplifications made), `XSpec.v` (a small independent specification, where the property needs one),
  `XProofs.v` (lemmas), `XProps.v` (the property theorems, with a non-vacuity `Example` beside each).
* C++ undefined behaviour (out-of-bounds access, signed overflow, undefined casts, null dereference, dangling asset)
  and exceptions are distinct outcomes (`UB`, `Throws`) of the model, not totalised away.
* Floating point: algorithms that only store or compare are modelled on bit patterns or an arbitrary order; algorithms that
  compute are modelled over the reals `R` of the standard library (an idealisation: rounding, overflow and NaN are not
  modelled unless the property is about them); where rounding decides the property (`Float32.v`, `PixelModel.v`,
  `OffsetModel.v`, `JulianModel.v` (binary64), interval sampling, image sampling) the model rounds to binary32 with Flocq's `round radix2 (FLT_exp ..)`.
* Threads: sequentially consistent interleavings of the individual atomic steps (C02 also has the relaxed-memory finding).
* Integrals: Coquelicot's `is_RInt` (used only in specifications and proofs of statements about integrals).
* A property that is false of the faithful model is kept at full strength in `properties.jsonl`, refuted by a theorem
  `..._refuted` with a witness (or for all states, when it always fails), and the true part is proved under the suffix
  `_partial` or, where the true part is itself a complete statement, a name that says what holds.
* Model mutation: `seeded/LOG.jsonl` lists the wrong programs tried against the theorems.

## Plan per property

Model file, then how the property is proved.

| id | modelled | proof |
|----|----------|-------|
| C01 | LoggerModel: ring buffer, write index, level, resize, dump | refinement to a bounded queue by induction on op lists |
| C02 | LoggerModel: three console flags, threads as lists of pending stores | invariant over all interleavings; two-thread witness under relaxed order |
| C03 | LoggerModel: log/sink state machine | induction on op lists |
| C04 | LoggerModel: threads with ticket and write steps | invariant; collision witness for every capacity |
| C05-C07 | RegistryModel: object list and name map | invariant over histories; pigeonhole for fresh names; witness |
| C08-C11, C73-C76 | SceneModel: node heap, asset tables, mode state machine, model loader graph, views | reachability invariants over op lists; fuel elimination; witnesses in all reachable states where the claim always fails |
| C61 | RegistryModel: handles with weak pointers | case analysis over histories |
| C12-C13 | MediumStackModel: stack of (primitive, medium), capacity 8 | induction on nesting derivations; witness |
| C14 | FrameBufferModel: channel record | op-list induction; witness for aliasing |
| C15-C17 | StarCatalogModel: catalogue bytes, header, entries, cutoff by binary32 order | sortedness, filter equality, truncation witness |
| C18-C19 | TychoModel: bit packing in N, line loop with array bounds | arithmetic on bit fields; safety invariant; witnesses |
| C20-C23 | FrustumModel: planes over R, Sutherland-Hodgman clipping, interval lists; FrustumDistProps: the frustum of distorted cameras | convexity, induction over planes and polygon edges, scan maxima, radial monotonicity of the lens |
| C24-C28 | TilesModel, RenderModel: tile loops, trail weights, stamps over Z and R | arithmetic, induction, witnesses; permutation invariance of sums |
| C29-C30, C59, C87-C88, C93-C96 | ImageModel/RenderModel/PathModel: glare, MIS, media, roulette, path loop, shadow rays | algebra; integrals for unbiasedness; induction over the segments of a path |
| C31-C36, C68-C69 | DistortionModel, CameraModel: distortion models, projection, camera setters and caches | algebra, Banach fixed point, history invariants, witnesses |
| C37-C39 | ArcModel: quadratic arcs, Thomas algorithm, root finders over R | algebra, induction on the number of knots |
| C40-C42, C70 | ImageModel: indexing, sampling, convolution | arithmetic, bounds with monotone rounding, convolution theorem for the DFT |
| C43-C45, C71 | DecodeModel: BMP, TGA, HDR decoders on byte arrays | bounds invariants for every byte string, inversion of every encoding, witnesses |
| C46-C47, C72 | PixelModel: integer pixel conversion with binary32 rounding, FITS pixel path | Flocq error bounds, loop invariants, witnesses |
| C48, C49, C79, C80 | UnitsModel: quantities, times, intervals | algebra; binary32 rounding for the sample count |
| C50-C51, C77-C78 | TransformModel: rotations, transforms | algebra, Coquelicot derivatives |
| C52, C53, C81-C83 | SpectralModel: bins, spectra, physics helpers | induction over bins, integrals of piecewise linear curves, algebra |
| C54, C66, C67 | SensorModel: read-out, noise draws, setters | monotonicity, history induction, witnesses |
| C55, C60, C84, C86 | LightModel: sphere light, unresolved objects | geometry and integrals over R |
| C56, C85, C89 | BsdfModel: seven BSDFs, direction samplers | algebra, change of variables, integrals |
| C57 | OffsetModel: int32 views of binary32 coordinates | monotonicity of the bit encoding |
| C58, C90-C92 | PsfModel: polyphase kernels, radius table | induction over sums, bounds |
| C62-C65 | RenderModel: occlusion lookup, irradiance and light interpolation, pixel statistics | arithmetic, induction over samples |
| C97-C102 | SurfaceModel: ellipsoid intersection, hit data, resolve_hit, normals, shading frames, mesh hits | quadratic roots; orthonormality algebra; index bounds; refutations |
| C103 | SolidModel: decomposition of a loaded node's matrix | matrix algebra; refutation for shears |
| C104 | SrgbModel: sRGB encode/decode | monotonicity through derivatives of powers; integer codes |
| C105 | ApertureModel: concentric disk map | bijection and Jacobian determinant |
| C106 | SetterModel: Node setters against the SPICE rules | case analysis per setter over reachable scenes |
| C107, C116 | McEwen and Hapke photometric laws | formulas stated from the literature, algebra |
| C108 | VndfModel: GGX visible-normal sampling | change of variables: derivative of the sampling map; onto / one-to-one |
| C109-C115 | LightTimeModel, MotionModel, SkyModel: light time, motion of nodes, SPICE rates, nadir pointing, aberration of stars, proper motion | contraction; derivatives; refutations |
| C117-C119 | CameraModel: focal length, pitch and intrinsics; solid angle of a pixel | invariants over histories; iterated integral |
| C120 | MaterialModel: factors and images of a material | invariant over edit histories |
| C121 | AovModel: depth, id, albedo, normals of a pixel | induction over samples and path events |
| C122 | EnvModel: background panorama, direction to texel | addressing arithmetic; refutation |
| C123 | TiffModel: reading and writing TIFF over libtiff's documented interface | induction over rows and strips; float32 error certificates |
| C124 | TextureModel: textures of a loaded model, caches | invariant over the list of materials |
| C125 | PngModel: reading and writing PNG over libpng's documented transforms | case analysis over colour type and depth; induction over rows |
| C126 | JpegModel: reading and writing JPEG over TurboJPEG's and stdio's answers | case analysis over the answers; induction over pixels |
| C127 | AiryModel, BesselStart, BesselFar...: the Airy PSF and its Bessel function | power series with interval certificates; differential inequality for the half line |
| C128-C129 | CliModel: fetch-tycho2, process-tycho2 as lists of disk states; the dispatcher | induction over files and states; refutations; induction over arguments |
| C130-C131 | PyModel: NumPy layout, array arguments, image views and their memory | mixed-radix arithmetic for strides; history induction; refutations |
| C132-C133 | NameModel: formats by extension, file buffers, make_path on directory trees | induction over strings and path components; refutations |
| C134-C136 | SpiceModel: the wrapper as a program over CSPICE calls; error flags, kernel pool, working directory, LSK flag | refinement of a flag-free machine over all histories; interleavings; refutations |
| C137 | DefocusModel: blur kernels, their index and the blur radius, exact reals | lower bound on the sum; geometry of disc and grid; equivalence with depth-of-field rays; refutations |
| C138-C139 | OpticsModel: PSF and blur caches as recorded arguments over histories of calls with allocation failures; the renderer's decisions | history induction with freshness invariants; case analysis; refutations |
| C140 | SharedModel.v: the heap of irradiances shared by instances and views, the loop of the SceneView constructor, the lookup of the light | induction over the instance list and over histories of views; counterexamples by computation |
| C141 | ColorMapModel.v: the scan for the extremes and the shading, with NaN and infinities | induction over the pixel list (invariant of the scan) |
| C142 | StarLightModel.v: process_magnitude, colour temperature, V-band calibration, irradiance of a star | algebra over the trapezoid sums, positivity and monotonicity; refutations by sign of Planck's law at negative temperature |
| C143 | StarLightModel.v: normalize_epoch followed by compute_direction_ | trigonometric identities, Lipschitz bound of cos; refutation for every star moving both ways |
| C144 | QeModel.v: valid_ratio, set_quantum_efficiency, default_qe, RGB read-out with an arbitrary generator | induction over histories, channels and frames; a relational (two-run) proof for the independence of colours |
| C145 | UnitTextModel.v: to_si_string on arbitrary exponents, the number texts | unique reading of the concatenated blocks by induction over the unit names; decimal numerals are injective |
| C146 | CrashModel.v: handle_crash, handle_terminate, enable_crash_handler as programs of any number of threads, with signal dispositions, blocking, abort(), nested crashes, the allocator's lock and failing files | inductive invariants over all interleavings (one winner of the flag), a ranking function for termination, a phase invariant for the log; refutations as runs and as invariants of endless ones |
| C147 | PyQuantityModel.v: the 69 bound classes and 12 conversion groups as tables, pybind11's overload loading and implicit conversion, operators, Time, variables and objects; PyQuantityProps.v | induction-free case analysis over classes; boolean sweeps over the two tables; real arithmetic via C49's lemmas |
| C148 | FitsHeaderModel.v: the header cards, CFITSIO's update/find/text rules, write_fits_metadata, the defaults of write_image_fits, read_fits_metadata; FitsHeaderProps.v | the written header as tables of distinct keys, lookup lemmas per key; relative error and mid-point lemmas of Flocq for decimals; concrete refutations |
| C149 | QuatModel.v: GLM's quat_cast, the quaternion getters and Shuster forms of Rotation; QuatProps.v | the sixteen vanishing minors of 4 q q^T (nsatz), one lemma per branch; uniqueness up to sign by the Gram products |
| C150 | LoadModel.v: ModelLoader::load on what ASSIMP returns, as a call that leaves a scene also when it throws; LoadSpec.v: what the file says; LoadProps.v | one case lemma per phase (materials, meshes, node tree by nested induction) giving the scene left and the exact outcome; points through C103 |
| C151 | JulianModel.v: Time's Julian date conversions, Time + Second, Time - Time and Interval::from_start with every operation rounded to binary64 (Flocq), TDB scale; JulianProps.v | dates lie on a grid of 2^-31 day where differences are exact; half-ulp bounds and nearest-point arguments |
| C152 | StarSceneModel.v: the four star calls of Scene as steps in surroundings (SPICE answers, log level, schedule of parallel_for); StarSceneSpec.v: last load and last epoch of a trace; StarSceneProps.v | parallel_for over any permutation of the indices is a map (induction); invariant along the history |
| C153 | KeplerModel.v: set_keplerian_orbit, its callback and the conics wrapper around conics_c as documented, with any solver of Kepler's equation; KeplerSpec.v: two-body motion; KeplerProps.v | derivative of the eccentric anomaly from the mean value theorem, chain rule for position and velocity, algebra of the orbit's frame, monotone Kepler equation for size and period |
| C154 | SpectralBins' operators as loops over IEEE binary32 bins (Flocq), the scalar argument a number or a reference to an own bin; the Python class with variables and objects | induction on the loops with the bins already assigned as invariant; Flocq's correctness theorems for x/x = 1 and x/1 = x; float -> double -> float is the identity |
| C155 | Interval of interval.hpp over binary64 times (Flocq round-to-nearest-even with gradual underflow), the float conversion of N - 1 | monotonicity of rounding; half the rounded difference never exceeds the difference (representable when small); x - y rounds to 0 only for x = y; sums of rounding errors; the refutation by locating the nearest double on its grid |

## Trusted base

1. **Coq 8.16.1's kernel** (every file is compiled by `coqc`; no `-type-in-type`, no `Unset Guard Checking`, no
   `bypass_check`, no functors, no module types, no plugins beyond those the standard library and the installed
   libraries load).
2. **The reading of the C++** recorded in the comments of the model files (file and lines beside every definition) and
   the simplifications stated there and below. Nothing connects the model to the compiled program mechanically.
3. **Axioms of the standard library**, as printed by `Print Assumptions`; no axiom of our own and none from another
   library. They are
   * `A` = `ClassicalDedekindReals.sig_forall_dec` (the reals: decidability of a countable conjunction)
   * `B` = `ClassicalDedekindReals.sig_not_dec` (the reals: excluded middle for negations)
   * `C` = `FunctionalExtensionality.functional_extensionality_dep`
   * `D` = `Classical_Prop.classic` (excluded middle; comes in through Coquelicot's and Flocq's proofs)

   `A`, `B`, `C` are what Coq's `Reals` rests on. Theorems about finite data (logger, registry, scene graph, catalogue,
   decoders, tiles, frame buffer) are closed under the global context.

### What is modelled, by source file

| /repo file | modelled | not modelled |
|---|---|---|
| `util/logger.*` | ring buffer, levels, console flags, sinks, concurrent slots, crash handlers (CrashModel.v) | formatting of lines, Windows' exception filter |
| `scene/name_registry.*`, `scene/scene_object.hpp`, `handles/handle.*` | all | log texts |
| `scene/node.*`, `frame_node.*`, `instance.*`, `scene.*` | setters, getters, graph edits, deletions, parent search; transforms as a chain of sources | SPICE calls, printing, asset-specific constructors |
| `scene/scene_view.*` | collection of instances, shadow transmittance, light-time and aberration loop of node transforms, resolve_hit | Embree scene construction |
| `assets/io/model_loader.ipp`, `assets/model.ipp` | graph construction from a parsed file, mesh conversion, the whole load with its failures, material search, texture loading and its caches | Assimp |
| `volumes/*` | medium stack, homogeneous media, isotropic phase function | heterogeneous density fields |
| `render/frame_buffer.hpp` | channel state | storage of pixels (see image.ipp) |
| `render/renderer.ipp` | tiling, point source trails and stamps, occlusion, statistics, MIS, path loop, auxiliary channels, background panorama, glare, post-processing order | Embree traversal, TBB scheduling (any order is covered) |
| `render/frustum.*`, `trajectory_arc.*`, `interaction.ipp`, `psf_lut.ipp` | all numerical code | - |
| `stars/*` | catalogue write/read, Tycho-2 parsing, photometry, epochs, directions, the star calls of Scene | file system |
| `cameras/*` | projection, distortion (Brown, OpenCV, Owen), caches and setters, circular aperture, sensor read-out, PSF kernels, the Airy function | plots |
| `images/image.*`, `images/color_map.hpp`, `images/io/{bmp,tga,hdr,fits,tiff,png,jpeg,convert_pixel}` | addressing, sampling, convolution, decoding, pixel conversion, FITS header and metadata; TIFF, PNG and JPEG over libtiff's, libpng's and TurboJPEG's documented interfaces | the libraries themselves (CFITSIO, libtiff, libpng, libjpeg-turbo) |
| `core/*` | rotations, transforms, spectra, physics, times, intervals, the SPICE wrapper's error, kernel and leap second handling | CSPICE's computations; its error subsystem is modelled from its documentation |
| `units/*` | values and scales; the unit texts (UnitTextModel.v) | compile-time dimension algebra (a type error is not a run-time behaviour) |
| `materials/*` | BSDFs, samplers | textures beyond image sampling |
| `assets/lights`, `assets/unresolved` | all numerical code | - |
| `geometry/*` (ellipsoid, mesh) | intersection, bounds, hit data, index checks | Embree user-geometry registration |
| `apps/huira_cli` | dispatcher, fetch-tycho2, process-tycho2 over any network and disk | TCLAP, progress bars, messages |
| `bindings/python` | NumPy arguments and results, image buffers, frame buffer views, unit classes and their conversions, Time arithmetic | the forwarding of handles, pybind11 itself |
| `util/paths.ipp`, `images/io/io_util.hpp`, `images/io/read_image.ipp` | make_path, read_file_to_buffer, format choice | executable path, data directory |

### Model-wide simplifications

* `double`/`float` computations are exact reals except in the files named under Method; so a theorem over `R` says what the
  algorithm computes, not how far a rounded run is from it.
* CSPICE's `xf2rav_c`, `spkezr_c`, `pxform_c`, `conics_c` are modelled from their documentation: an angular velocity in the base frame, a state, a rotation.
* Only the optics model (allocation of kernels) runs out of memory; `std::vector::max_size` is respected where a size comes from a file.
* The answers of external libraries (Embree, SPICE, CFITSIO, FFTW, Assimp, the random number generator) are data that
  theorems quantify over, or (FFTW) their documented definition.

## Results per property

Status, theorems with the axioms `Print Assumptions` lists for each (letters above; `-`: closed under the global context), and what is
missing, refuted or assumed.

**C01 Log dump is the most recent accepted messages, oldest first** - proved. LoggerProps.v: `logger_dump_is_recent_accepted` [-]. Sequential histories, fewer than 2^64 log calls; allocation failure and file I/O not modelled.

**C02 Console verbosity hierarchy holds whenever no toggle is in progress** - proved. LoggerProps.v: `console_hierarchy` [-], `console_sequential_effect` [-], `console_hierarchy_relaxed_refuted` [-]; TightProps3.v: `console_initial` [-]. Proved for all sequentially consistent interleavings of the stores (the stated quantifier). Finding: with memory_order_relaxed alone the hierarchy can break (console_hierarchy_relaxed_refuted).

**C03 Every accepted message reaches the custom sink exactly once and in order; errors are never filtered** - proved. LoggerProps.v: `logger_sink_exact` [-], `logger_error_never_filtered` [-]; TightProps6.v: `logger_levels` [-]. Sinks that re-enter the logger are not modelled.

**C04 Concurrent log calls never write one buffer slot at the same time** - partial. LoggerProps.v: `concurrent_log_no_race_partial` [-], `concurrent_log_race_refuted` [-]. Full claim refuted for every capacity (a paused call lapped by a full turn of the ring); holds when no call in flight is lapped.

**C05 Names in a scene are unique and lookups return the object that carries the name** - proved. RegistryProps.v: `registry_names_unique_and_lookup_exact` [-]. API usage: added objects are new, renamed objects are in the registry; fewer than 2^31-2 objects (int counter).

**C06 A generated name is the first free one** - proved. RegistryProps.v: `registry_first_free_name` [-].

**C07 Renaming an object to the name it already has does nothing** - partial. RegistryProps.v: `rename_to_free_name_partial` [-], `rename_to_own_name_refuted` [-], `rename_to_own_name_always_changes` [-]. Full claim refuted: set_name with the object's own name renames it to name_k.

**C08 Deleting a child frame or instance removes it and its subtree from the scene graph** - partial. SceneProps.v: `C08_refuted` [-], `C08_delete_child_partial` [-], `C08_other_parent_partial` [-]. Full claim false: delete_child throws for every child of every scene built through the API because child nodes are never entered in node_registry_ (C08_refuted, all reachable states). Proved: in any graph a call that returns removes exactly that child; a node of another parent is rejected without change.

**C09 No dangling assets: after an asset is deleted nothing in the scene refers to it** - partial. SceneProps.v: `C09_primitive_partial` [-], `C09_other_partial` [-], `C09_geometry_partial` [-], `C09_prune_partial` [-], `C09_refuted_model` [-], `C09_refuted_geometry_atomic` [-], `C09_refuted_used` [-]. Proved for the nodes of the scene graph: a deletion that returns leaves no reference, one that throws leaves the scene unchanged (not delete_geometry). Full claim false: instances inside a loaded model's graph are not pruned (the view then dereferences a deleted primitive); delete_geometry is not atomic; a used asset can never be deleted because delete_child throws.

**C10 A SPICE-driven node always sits under a parent it can be resolved against** - partial. SceneProps.v: `C10_spice_parent_partial` [-], `C10_resolves_partial` [-], `C10_refuted_callback` [-], `C10_refuted_root` [-]. Proved for all histories without callbacks; every node resolves for all histories that leave the root's modes alone. Full claim false: callbacks are not checked against SPICE children, and the root can be changed through get_parent.

**C11 Node getters return what the matching setter stored** - partial. SceneProps.v: `C11_position_partial` [-], `C11_scale_partial` [-], `C11_velocity_partial` [-], `C11_origin_partial` [-], `C11_rotation_partial` [-], `C11_angular_partial` [-], `C11_frame_partial` [-], `C11_refuted_rotation` [-], `C11_refuted_frame` [-], `C11_refuted_stale` [-]; TightProps5.v: `C11_no_origin` [-]; TightProps6.v: `C11_new_node` [-]. Position, scale, velocity and SPICE origin proved for all histories. get_static_rotation, get_static_angular_velocity and get_spice_frame check the position's mode instead of the rotation's: refuted in every state where the two differ.

**C12 The medium stack is restored by every well nested traversal and never overflows** - proved. MediumStackProps.v: `medium_stack_never_overflows` [-], `medium_stack_nested_restores` [-], `medium_stack_top_is_innermost` [-]. Restoration is proved for any depth; innermost medium up to the capacity 8.

**C13 Overlapping volumes: leaving a volume removes its medium** - partial. MediumStackProps.v: `medium_stack_left_is_removed_partial` [-], `medium_stack_overlap_refuted` [-]. Refuted for overlapping volumes.

**C14 Frame buffer channels are enabled, cleared and read independently** - partial. FrameBufferProps.v: `frame_buffer_channels_independent_partial` [-], `frame_buffer_power_alias_refuted` [-]. Refuted for received direct/indirect/total power (one image) and for sensor response disabling received power.

**C15 Star catalogue file round trip** - proved. StarCatalogProps.v: `catalog_round_trip` [-]. byte-level model of write/read; any tie order of std::sort, any padding; limit: fewer than 2^57 stars (offset arithmetic)

**C16 Magnitude cutoff on reading a catalogue equals filtering** - proved. StarCatalogProps.v: `catalog_cutoff_is_filter` [-], `clip_is_filter` [-]. for every cutoff bit pattern

**C17 A damaged catalogue file is rejected** - partial. StarCatalogProps.v: `catalog_rejects_foreign_partial` [-], `catalog_truncated_accepted_refuted` [-]. bad magic/version rejected for every file; truncated files are accepted with fabricated stars (defect, refuted)

**C18 Packed Tycho-2 identifiers are injective and reversible** - proved. StarCatalogProps.v: `tycho_id_round_trip` [-], `tycho_id_injective` [-], `tycho_id_general` [-].

**C19 The Tycho-2 loader stays inside its buffer and keeps star fields separate** - partial. TychoProps.v: `tycho_loader_in_bounds_partial` [-], `tycho_fields_from_own_line_partial` [-], `tycho_loader_refuted` [-]; TightProps3.v: `tycho_data_line` [-], `tycho_other_line` [-]. true for terminated files with parseable ids (and proper motions); three defects refuted

**C20 Clipped triangles lie inside the frustum and inside the triangle** - proved. FrustumProps.v: `clip_triangle_exact` [AC], `clip_triangle_inside` [AC], `clip_triangle_outside` [AC], `frustum_contains_iff` [AC]. exact real arithmetic; includes full coverage of the visible part, degenerate triangles included

**C21 Interval list intersection is exact** - proved. FrustumProps.v: `intersect_intervals_exact` [AC].

**C22 Everything that projects into the image passes the camera frustum test** - partial. CameraProps.v: `C22_frustum_is_exactly_the_pixel_rectangle_partial` [ABC], `C22_nothing_between_pixels_is_culled_partial` [ABC], `C22_refuted_last_column_is_culled` [ABC]; FrustumDistProps.v: `C22_distorted_exact_partial` [ABC], `C22_refuted_barrel` [ABC], `C22_refuted_pincushion` [ABC], `C22_brown_barrel` [AC], `C22_brown_pincushion` [AC]. The full claim is false: points in the last pixel column or row are culled. Proved: without distortion the frustum is exactly the rectangle between the outermost pixel positions. With any distortion, the frustum is exactly the wedge between the widest edge-pixel rays the camera searched, and the search leaves the corners out of the left and right edges; so every barrel lens culls the ray of a left corner pixel, and a pincushion lens culls rays through the middle of an edge; Brown lenses with non-positive radial terms (as iterated) are barrels, with non-negative ones (exactly inverted) pincushions.

**C23 Arc clipping returns exactly the visible parameter range** - proved. FrustumProps.v: `clip_arc_exact` [ABC]. crossings assumed exact and resolved (see C39 for the root finders)

**C24 Tiles partition the image** - proved. TilesProps.v: `C24_tiles_partition_image` [-], `C24_samples_binned_once` [-]. all tile orders

**C25 A rendered image does not depend on the thread schedule** - partial. RenderProps.v: `C25_schedule_independent_partial` [A], `C25_time_race` [AC], `C25_sampler_race` [AC]. refuted with motion blur or lights (shared time, shared sampler_); proved without

**C26 Trail weights distribute exactly the received energy** - partial. RenderProps.v: `C26_weights_partial` [ABC], `C26_always_visible` [ABC], `C26_total_counts_intervals` [ABC], `C26_partly_visible_overcounted` [ABC], `C26_trail_samples` [ABC]; TightProps2.v: `C26_spacing` [ABC], `C26_halved` [ABC]. refuted for partly visible sources; proved for sources visible throughout

**C27 An unresolved object inside the image is drawn** - partial. TilesProps.v: `C27_points_deposited_partial` [AC], `C27_point_lost_at_tile_boundary` [AC]. refuted: a point whose rounding crosses a tile boundary is dropped; proved otherwise

**C28 PSF stamps stay inside their buffers and lose nothing inside the image** - proved. TilesProps.v: `C28_stamping_is_safe_and_exact` [AC], `C28_stamping_with_occlusion` [AC]. exact real sums; the image equals the untiled sum

**C29 Veiling glare conserves total power** - proved. RenderProps.v: `C29_veiling_conserves` [AC], `C29_rejects_bad_alpha` [AC]. exact real arithmetic

**C30 Multiple importance sampling weights are a partition of unity** - partial. RenderProps.v: `C30_partition_of_unity_partial` [AC], `C30_degenerate_cases` [AC]. refuted for zero densities and overflow

**C31 Distortion: zero coefficients are the identity, and undistort inverts distort when the model contracts** - proved. DistortionProps.v: `C31_zero_coefficients_are_identity` [ABC], `C31_brown_undistort_inverts` [ABC], `C31_owen_undistort_inverts` [ABC], `C31_brown_round_trip` [ABC], `C31_brown_is_textbook` [ABC]. Exact real arithmetic. Contraction bound given in terms of the coefficients; existence and uniqueness of the preimage by Banach's theorem, geometric error bound including the tolerance exit.

**C32 OpenCV distortion with zero coefficients is the identity** - partial. DistortionProps.v: `C32_refuted_zero_coefficients_double` [AC], `C32_refuted_undistort_alternates` [ABC], `C32_refuted_round_trip` [ABC], `C32_opencv_offset_by_input_partial` [ABC], `C32_denominator_never_zero` [AC]. The claim is false of the code: zero coefficients double every point; undistort alternates. Proved: distort is the documented OpenCV result plus the input, and the division is never by zero.

**C33 Pixel projection and pixel direction are mutual inverses** - proved. CameraProps.v: `C33_project_of_direction` [AC], `C33_direction_of_projection` [AC], `C33_with_distortion` [AC]. Exact real arithmetic, both conventions; also for any exactly invertible distortion.

**C34 A camera setter that throws leaves the camera unchanged** - partial. CameraProps.v: `C34_refuted_set_focal_length` [ABCD], `C34_refuted_configure_sensor` [ABCD], `C34_refuted_set_intrinsics` [ABCD], `C34_sensor_setters_unchanged_partial` [AC]; SensorProps.v: `C34_sensor_electronics_unchanged_partial` [ABCD]; QeProps.v: `C144_setter` [AC]; TightProps4.v: `C34_convention` [-]; TightProps6.v: `C34_sensor_refused` [ABCD]. False for set_focal_length, configure_sensor_* and set_intrinsics (proved for all cameras); proved for all sensor setters. set_quantum_efficiency: C144_setter.

**C35 Setting an intrinsic matrix K makes the camera project with K** - partial. CameraProps.v: `C35_set_intrinsics_projects_with_K_partial` [ABCD], `C35_refuted_principal_point_lost` [ABCD]. set_intrinsic_matrix reads the principal point from the transposed entries, so the claim is false for every K with non-zero principal point; set_intrinsics is correct.

**C36 Cached camera data agree with the configuration** - partial. CameraProps.v: `C36_plain_histories_are_fresh_partial` [ABCD], `C36_reinstalling_distortion_refreshes_partial` [ABCD], `C36_refuted_axis_convention` [ABCD], `C36_refuted_axis_convention_culls_everything` [ABCD], `C36_refuted_distortion_field` [ABCD], `C36_refuted_solid_angles_not_recomputed` [-], `C36_refuted_solid_angles` [ABCD], `C36_refuted_after_exception` [ABCD]. Proved for all histories without distortion or convention changes and for a refresh recipe after any history; four kinds of stale cache are proved possible.

**C37 Trajectory arcs pass through their samples** - proved. ArcProps.v: `C37_polynomial_through_samples` [AC], `C37_spline_through_samples` [AC], `C37_spline_clamped` [AC]. exact real arithmetic

**C38 Spline trajectories are smooth** - proved. ArcProps.v: `C38_spline_is_natural_and_C2` [AC], `C38_no_zero_pivot` [AC]. exact real arithmetic

**C39 The arc root finders return exactly the real roots in range** - partial. ArcProps.v: `C39_linear_partial` [AC], `C39_quadratic_partial` [ABC], `C39_cubic_three_roots_partial` [ABCD], `C39_cubic_misses_roots` [ABCD], `C39_quadratic_small_discriminant` [ABC]. refuted for one-real-root cubics and tiny discriminants; proved elsewhere

**C40 Image pixel addressing is a bijection and out-of-range access is rejected** - partial. ImageProps.v: `C40_new_image` [-], `C40_addressing_bijective` [-], `C40_store_then_read` [-], `C40_at_rejects_large_partial` [-], `C40_at_index` [-], `C40_refuted_negative_column` [-], `C40_refuted_negative_outside` [-], `C40_refuted_negative_size` [-]. Addressing is a bijection and stores are independent. The rejection claim is false: at(x, y) checks only the upper bounds, so negative coordinates alias another pixel or read outside the buffer; the constructor accepts two negative dimensions.

**C41 Sampling an image stays within the image and within the range of its pixels** - partial. ImageProps.v: `C41_sampling_reads_existing_pixels_partial` [AC], `C41_bilinear_between` [AC], `C41_bilinear_between_int` [AC], `C41_centre_sample_partial` [AC], `C41_refuted_repeat_last_column` [AC], `C41_refuted_mirror_large` [AC], `C41_binary32_rounding` [ABCD], `C41_refuted_wide_image` [ABCD]. Memory safety for any monotone float rounding up to 2^24+1 pixels a side (false beyond: refuted for binary32), range in exact arithmetic, centres; Repeat maps u=1 to the first column; Mirror is undefined from 2^31 on.

**C42 Both convolution paths compute the same result** - partial. ImageProps.v: `C42_large_kernels_convolve` [ABC], `C42_small_kernels_flip` [ABC], `C42_symmetric_kernels_partial` [ABC], `C42_refuted_paths_disagree` [ABC]. The frequency path is linear convolution (convolution theorem proved from FFTW's definition of the DFT); the direct path is correlation; they agree on odd point-symmetric kernels and disagree otherwise.

**C43 BMP decoding is memory safe and rejects truncated files** - partial. DecodeProps.v: `C43_memory_safe_partial` [-], `C43_content` [-], `C43_truncated_rejected` [-], `C43_valid_decodes` [-], `C43_refuted_height` [-], `C43_refuted_width` [-]. For all byte strings under 2 GiB whose header sizes fit int arithmetic: no undefined behaviour; content, truncation and acceptance proved for all byte strings. The unrestricted safety claim is refuted: height INT_MIN and width*3 >= 2^31 overflow int.

**C44 TGA decoding is memory safe** - partial. DecodeProps.v: `C44_memory_safe_partial` [-], `C44_plain_content` [-], `C44_rle_round_trip` [-], `C44_refuted_raw_packet` [-], `C44_refuted_map_index` [-], `C44_refuted_no_map` [-], `C44_refuted_16bit` [-]; TgaSafetyProps.v: `C44_rle_safe_iff` [-], `C44_long_run_safe` [-]. Safe for every uncompressed file of grey, >=24-bit true colour, or colour-mapped with in-range indices; run-length decoding inverts every valid packet stream and, for every file, is safe exactly when no raw packet overruns the image (over-long run packets are clipped). The full claim is refuted by four classes of malformed file.

**C45 HDR scanline decoding is memory safe and inverts run-length encoding** - proved. DecodeProps.v: `C45_memory_safe` [AC], `C45_round_trip` [AC]; HdrHeaderProps.v: `C45_header` [AC]. Every byte string, text header included; every plain or run-length coded encoding of a -Y +X image; every accepted file starts with #? and has a resolution line naming the decoded size. Pixel values are exact reals (each one is exactly representable as float).

**C46 Integer pixel conversion round trips** - partial. PixelProps.v: `C46_unsigned_round_trip` [ABCD], `C46_unsigned_monotone_saturating` [ABCD], `C46_signed_round_trip_partial` [ABCD], `C46_refuted_signed` [ABCD], `C46_refuted_uint32` [ABCD]. 8 and 16-bit unsigned proved with binary32 rounding; signed negative values come back one too large and 32-bit white is an out-of-range cast, both proved

**C47 FITS write/read keeps the image upright** - proved. PixelProps.v: `C47_file_order` [AC], `C47_float_round_trip` [AC], `C47_upright` [AC]. Pixel path of the FITS writer and reader; CFITSIO itself is a function on values

**C48 Sample times over an interval are evenly spaced and stay inside** - partial. UnitsProps.v: `C48_partial` [ABCD], `C48_small` [ABCD], `C48_constructors` [AC], `C48_refuted` [ABCD]. Holds for up to 2^24+1 samples; for 2^24+2 samples the float conversion of N-1 rounds down and the last sample lies beyond the end (C48_refuted). Doubles are exact reals.

**C49 Unit conversions are exact inverses and compose** - partial. UnitsProps.v: `C49_convert` [ABC], `C49_multiply` [ABC], `C49_add_partial` [ABC], `C49_refuted_affine` [ABC], `C49_compare` [ABC], `C49_compare_same` [ABC]. Conversions, products, quotients, reciprocals and comparisons agree with SI for all units; sums, multiples and negation agree for all linear units and never for Celsius or Fahrenheit (they work on the raw values).

**C50 Rotations stay rotations** - proved. TransformProps.v: `C50_rotation` [ABC], `C50_matrix` [ABC], `C50_axis_angle` [ABC], `C50_short_axis` [ABC], `C50_quaternion` [ABC], `C50_euler` [ABC], `C50_euler_throws` [ABC], `C50_reverse` [ABC], `C50_inverse` [ABC], `C50_compose` [ABC], `C50_parent` [ABC]. Exact real arithmetic. Every constructor of the API that returns gives a rotation; axis-angle, quaternion and Euler constructors are characterised by turns about axes; an axis shorter than machine epsilon silently gives the identity (C50_short_axis).

**C51 Transforms compose and invert, and agree with their matrix** - partial. TransformProps.v: `C51_compose_partial` [ABC], `C51_chain_partial` [ABC], `C51_inverse_partial` [ABC], `C51_matrix_partial` [AC], `C51_refuted_compose` [ABC], `C51_refuted_inverse` [ABC], `C51_refuted_matrix` [AC]. Composition, chains and inverse hold for uniform scales only and are false for non-uniform ones; to_matrix acts as the transform only when the position is zero and scale commutes with rotation (translation is written to the wrong row/column, scale is applied after rotation).

**C52 Spectral bins conserve totals** - partial. SpectralProps.v: `C52_accepted_layouts` [AC], `C52_uniform_layout` [AC], `C52_edge_layout` [AC], `C52_overlap_rejected` [AC], `C52_from_total` [AC], `C52_elementwise` [A], `C52_total_max_min` [AC], `C52_band_integral` [ABC], `C52_validity` [AC], `C52_full_list` [A], `C52_refuted_short_list` [A]. Exact reals instead of float. Refuted part: an initializer list shorter than the number of bins (and longer than one) leaves bins unset.

**C53 Stellar aberration returns a direction** - partial. PhysicsProps.v: `C53_lorentz_spec` [ABC], `C53_refuted_unit` [ABC], `C53_small_error_partial` [ABC], `C53_towards_velocity` [ABC]. Refuted: the code divides the whole numerator by gamma; for every moving observer some unit direction becomes shorter than 1 and violates the aberration law. Proved: identity at rest, exact throw condition, error against the Lorentz formula at most beta^3/(1-beta), shift towards the velocity.

**C54 Sensor read-out is bounded and monotone** - proved. SensorProps.v: `C54_readout_in_unit_interval` [ABCD], `C54_quiet_readout_is_response` [ABC], `C54_response_shape` [AC]; TightProps.v: `C54_sum_over_bins` [ABC]. For all setter histories, frames and random draws; the shape theorem gives linearity below and constancy from saturation on.

**C55 A sphere light emits the power it was given and its sampling density is consistent** - partial. LightProps.v: `C55_sample` [ABC], `C55_density` [ABCD], `C55_pdf_support` [ABC], `C55_spectral_power` [ABC], `C55_refuted_total_power` [ABC], `C55_negative_power` [ABC], `C55_emitter` [ABC]; TightProps5.v: `C55_emitter_spectral` [AC]. sampling, density and spectral power proved over exact reals; refuted for a total power given as a number: every bin receives all of it, so n bins emit n times the power

**C56 BSDF samples are consistent with evaluation, and BSDFs are reciprocal** - partial. BsdfProps.v: `C56_sample` [ABCD], `C56_reciprocal_partial` [ABCD], `C56_below_partial` [ABCD], `C56_refuted_lambertian` [ABCD], `C56_null` [ABCD], `C56_nonnegative` [ABCD]. Sampling consistency proved for all seven BSDFs; reciprocity and zero below the surface proved except for the Lambertian BSDF, which tests only wi (refuted: light seen from below the surface).

**C57 Ray origin offset moves to the side of the normal** - partial. OffsetProps.v: `C57_coordinate_partial` [ABCD], `C57_point_partial` [ABCD], `C57_defined` [ABCD], `C57_refuted_minus_zero` [ABCD], `C57_refuted_largest` [ABCD]. Bit-level model of binary32. Proved for +0 and all numbers up to 2^127 in size that are not negative subnormals below 2^-141; refuted (signed overflow) at -0.0 with a negative normal and at tiny negative numbers, and at FLT_MAX (NaN).

**C58 The PSF radius table never cuts off a significant pixel** - partial. PsfProps.v: `C58_centered_partial` [AC], `C58_refuted_shifted` [AC]. Proved for the kernel from which the table is built (cut-off, range and tightness); refuted for shifted sub-pixel kernels: a PSF whose ring 2 is dark on axis but lit at half a pixel is always cut at radius 1.

**C59 Transmittance is multiplicative and bounded** - proved. PathProps.v: `C59_field_accepts` [AC], `C59_beer_lambert` [ABCD]. homogeneous media, exact reals

**C60 Asteroid magnitude model obeys its definition** - partial. UnresolvedProps.v: `C60_throws` [ABCD], `C60_offset_partial` [ABCD], `C60_refuted_definition` [ABCD], `C60_phase_partial` [ABCD], `C60_refuted_irradiance` [ABCD]. refuted for every asteroid: distances are multiplied by the astronomical unit instead of divided, magnitudes are 223.5 too large; what holds (offset constant, phase monotone, exceptions) is proved

**C61 Handles reject expired or removed objects** - proved. RegistryProps.v: `handle_access_exact` [-].

**C62 The occlusion test reads only stored depths** - partial. TilesProps.v: `C62_depth_read_out_of_range` [A], `C62_depth_read_partial` [-]. refuted at the far edge; proved strictly inside

**C63 Irradiance of a moving source is interpolated between its time samples** - proved. RenderProps.v: `C63_irradiance_interpolation` [AC], `C63_irradiance_at_samples` [AC].

**C64 A moving light is placed between its time samples** - partial. RenderProps.v: `C64_light_position` [AC], `C64_light_position_at_samples` [AC], `C64_rotation_and_scale_lost` [AC]. position proved; rotation and scale are dropped by the code

**C65 Pixel statistics are exact and dynamic sampling never stops early** - proved. RenderProps.v: `C65_pixel_statistics` [AC], `C65_all_nan` [AC]; TightProps2.v: `C65_early_exit` [AC].

**C66 Sensor output is quantised to the converter's levels** - partial. SensorProps.v: `C66_refuted_output_not_quantised` [AC], `C66_whole_steps_give_levels_partial` [AC]. False of the code: rounding is commented out; for every valid sensor some signal gives no level.

**C67 Reading the same frame out twice gives the same image** - partial. SensorProps.v: `C67_quiet_readout_reproducible_partial` [ABC], `C67_refuted_noisy_readout` [ABC]. True without noise; false with noise because the generator is a process-wide static.

**C68 Gain in decibels, f-stop and diopters read back as set** - proved. SensorProps.v: `C68_gain_db_round_trip` [ABCD], `C68_fstop_round_trip` [ABC], `C68_diopters_round_trip` [AC], `C68_diopters_tiny` [AC]. Exact real arithmetic; diopters between 1e-12 and 1e12 in magnitude, smaller ones become focus at infinity.

**C69 Depth of field: rays of a pixel start on the aperture and meet at the focus distance** - partial. SensorProps.v: `C69_samples_on_aperture` [ABC], `C69_rays_meet_at_focus_distance` [ABC], `C69_refuted_with_distortion` [AC], `C69_projected_area_bounded` [AC]. Proved without distortion for both conventions; with distortion the focal point lies at that distance, not depth.

**C70 Adding images is pixel-wise and needs equal sizes** - proved. ImageProps.v: `C70_image_add` [A]. operator+ on float pixels

**C71 Radiance HDR orientation is honoured** - partial. DecodeProps.v: `C71_standard_orientation_partial` [AC], `C71_refuted_orientation` [AC]. Holds for -Y +X; refuted for +Y: the row order is not reversed.

**C72 FITS integer scaling** - partial. PixelProps.v: `C72_quantisation_partial` [AC], `C72_counts_exact_partial` [AC], `C72_refuted_16bit_sensor` [AC], `C72_refuted_8bit_black` [AC], `C72_refuted_saturate` [AC]; TightProps5.v: `C72_saturate` [AC]. Holds when the counts fit the file and no SATURATE is given; refuted otherwise

**C73 The last setter called on a node decides where the scene takes its transform from** - partial. SceneProps.v: `C73_position_partial` [-], `C73_rotation_partial` [-], `C73_refuted_state_callback` [-], `C73_refuted_manual` [-], `C73_refuted_body` [-]. Proved for all histories, except that after a state callback the rotation must not be set separately (refuted otherwise: position becomes zero), set_manual_transform does not leave SPICE mode, and set_angular_velocity(Vec3) keeps an earlier body-frame flag.

**C74 A scene view holds every instance exactly once** - proved. SceneProps.v: `C74` [-], `C74_total` [-]. Instances are named by the path of nodes to them; the transform of an instance as a function of that path is not modelled.

**C75 get_parent returns the parent** - proved. SceneProps.v: `C75` [-], `C75_root` [-]. All reachable scenes.

**C76 get_material_by_id finds a material exactly when the model has it** - proved. SceneProps.v: `C76` [-]. All loaded models none of whose primitives has been deleted; materials are represented by the id of each primitive's material.

**C77 Velocities compose as time derivatives** - proved. TransformProps.v: `C77` [ABC], `C77_point` [AC]; TightProps4.v: `C77_carried` [AC]. Coquelicot derivatives; exact real arithmetic; the outer scale is constant in time (Transform has no scale rate).

**C78 The inverse of a moving transform carries its true velocity** - partial. TransformProps.v: `C78_partial` [ABC], `C78_refuted` [ABCD]. The inverse's angular velocity is right; its linear velocity is right exactly when omega x position = 0 (the omega x p term is missing): refuted by a spinning frame off the origin.

**C79 Named units have their defined sizes** - partial. UnitsProps.v: `C79_partial` [ABC], `C79_covered` [ABC], `C79_refuted` [ABC], `C79_mile_error` [ABC]. All named units except Mile: its ratio 80467/50 makes a mile 1609.34 m instead of 1609.344 m (off by at most 4 mm), and Mile/Hour differs from MilesPerHour.

**C80 Julian dates round trip in every time scale** - proved. UnitsProps.v: `C80_roundtrip` [AC], `C80_values` [AC]. Relative to SPICE's unitim and deltet being mutually inverse (hypothesis faithful); exact real arithmetic.

**C81 Measured spectra are averaged into bins** - partial. SpectralProps.v: `C81_rejects` [AC], `C81_covered_bins_partial` [ABCD], `C81_other_bins` [ABCD], `C81_refuted_right_gap` [ABC]. Refuted where a bin reaches beyond the last sample: the last value is extended flat, while the gap before the first sample counts as 0. Exact reals.

**C82 RGB colours convert to spectra consistently** - partial. PhysicsProps.v: `C82_mean_partial` [AC], `C82_grey` [ABC], `C82_refuted_mean` [AC]. Refuted: the overlap test uses the red RGB band only and the last bin as upper end, so layouts covering blue and green only, or in descending order, get the grey average.

**C83 Photometry helpers follow their laws** - proved. PhysicsProps.v: `C83_linspace` [AC], `C83_trapezoid_exact` [ABCD], `C83_planck` [ABCD], `C83_black_body` [ABCD], `C83_magnitudes` [ABCD]; PlanckProps.v: `C83_wien_scaling` [ABCD], `C83_rayleigh_jeans` [ABCD]. Exact reals. black_body with one sample per bin is 0, with none undefined behaviour (wrap-around of size()-1).

**C84 A Lambertian sphere reflects its albedo's share of light** - partial. UnresolvedProps.v: `C84_irradiance_partial` [ABCD], `C84_fades_partial` [ABCD], `C84_refuted_energy` [ABCD], `C84_throws` [ABCD]. phase law and inverse square proved; energy balance refuted: 3/8 of the albedo's share

**C85 Direction samplers report the density they sample** - partial. BsdfProps.v: `C85_uniform` [ABCD], `C85_cosine` [ABCD], `C85_power_cosine` [ABCD], `C85_ggx` [ABCD], `C85_refuted_sine` [ABCD]. uniform, cosine, power-cosine and GGX half-vector samplers proved; sine_hemisphere refuted: it reports 2 sin/pi^2 but draws with density 3 cos^2/(2 pi).

**C86 Magnitudes become irradiance with a solar spectrum** - partial. UnresolvedProps.v: `C86_magnitude_irradiance` [ABCD], `C86_refuted_solar_shape` [ABCD], `C86_visual_band` [ABC]. Pogson's law, albedo linearity, positivity and photon count proved; solar shape refuted: energy shares are used as photon shares

**C87 Light is counted exactly once by light sampling and BSDF sampling together** - partial. PathProps.v: `C87_surface_light_once_partial` [AC], `C87_light_behind_delta_surface_refuted` [ABCD], `C87_volume_light_twice_refuted` [AC]. true for non-delta BSDFs at surfaces; refuted behind delta surfaces (light invisible) and in media (light double counted: no MIS weight on the light sample). Random number generation itself is not modelled; densities are

**C88 Volume free path sampling is unbiased** - partial. PathProps.v: `C88_collision_probability` [ABCD], `C88_surface_unbiased` [ABCD], `C88_scattering_unbiased` [ABCD], `C88_isotropic` [ABC], `C88_thin_media_refuted` [ABCD]. holds for mean extinction above 1e-6; refuted below (thin media do not attenuate)

**C89 A surface never reflects more light than it receives** - partial. BsdfProps.v: `C89_lambertian` [ABCD], `C89_lommel_seeliger` [ABCD], `C89_refuted_cook_torrance` [ABCD]; EnergyProps.v: `C89_mcewen` [ABCD], `C89_oren_nayar` [ABCD], `C89_refuted_oren_nayar` [ABCD], `C89_refuted_hapke` [ABCD]. Settled for every BSDF. True: Lambertian reflects exactly its albedo, Lommel-Seeliger at most half of it, McEwen at most its albedo (all views), Oren-Nayar at most its albedo for roughness from 0.21 up (and at most 1.6 % more for any). False: Oren-Nayar with roughness up to 0.2 in grazing views, a white isotropic Hapke surface for exactly the views within 60 degrees of the normal, white dielectric Cook-Torrance in every pair of directions.

**C90 PSF kernels are non-negative and carry unit energy** - proved. PsfProps.v: `C90_kernels` [AC], `C90_bright` [AC]. Exact real arithmetic, one channel (the code is channel-wise).

**C91 Sub-pixel PSF kernels match the source position** - proved. PsfProps.v: `C91_bank` [AC], `C91_centroid` [AC], `C91_no_banks` [AC]. All positive bank counts; C91_no_banks shows 0 throws and -1 is undefined (constructor does not validate).

**C92 Point sources and resolved objects in the same direction light the same pixel** - partial. PsfProps.v: `C92_quarter_partial` [AC], `C92_refuted` [AC]. Same pixel only in the lower left quarter of each pixel; elsewhere the point source is drawn one pixel further (round against floor): half a pixel misregistration.

**C93 Shadow rays carry the product of the transmittances on their way** - proved. PathProps.v: `C93_shadow_transmittance` [ABC], `C93_shadow_range` [ABCD]; TightProps.v: `C93_scattering_light` [AC], `C93_surface_light` [AC]. exact reals; nesting depth up to the stack capacity 8 (see C13); the answers of Embree are data

**C94 Russian roulette leaves the mean unchanged** - proved. PathProps.v: `C94_roulette_unbiased` [AC]. exact reals, uniform random number on [0,1]

**C95 The indirect clamp limits indirect light only and keeps its colour** - proved. PathProps.v: `C95_indirect_clamp` [AC]. exact reals

**C96 Path radiance is never negative, paths end, and primary light is exact** - proved. PathProps.v: `C96_radiance_nonnegative` [ABCD], `C96_bounded` [ABCD], `C96_primary` [ABCD]. exact reals; the scene's answers and random numbers are arbitrary data with non-negative radiances and BSDF values

**C97 Ellipsoids are hit where and when the ray meets them** - proved. SurfaceProps.v: `C97_nearest_hit` [ABCD], `C97_bounds` [AC]. tnear = 0; exact real arithmetic

**C98 Surface data of an ellipsoid hit describe the hit point** - partial. SurfaceProps.v: `C98_hit_data` [ABCD], `C98_frame` [ABC], `C98_small_sphere_refuted` [ABC]. position and normals in full; the frame where the tangent is longer than 1e-4; refuted for spheres with radius below 1e-4

**C99 A resolved hit lies on the ray** - partial. SurfaceProps.v: `C99_position_iff` [ABC], `C99_static_instance` [ABC], `C99_moving_instance_refuted` [ABC]. exact condition; true for instances at rest; refuted for instances that move during the exposure

**C100 Returned normals face the viewer and are perpendicular to the surface** - partial. SurfaceProps.v: `C100_faces_viewer` [ABC], `C100_perpendicular_iff` [ABC], `C100_uniform_scale_partial` [ABC], `C100_nonuniform_scale_refuted` [ABC]. facing proved; perpendicular exactly when the normal is an eigenvector of the squared scale: uniform scales proved, others refuted

**C101 Materials shade in an orthonormal frame** - partial. SurfaceProps.v: `C101_frame` [ABC], `C101_frame_mapped` [ABC], `C101_default_tangent_frame` [AC], `C101_mesh_without_tangents_refuted` [ABC]. proved for tangents not parallel to the normal; refuted for meshes without tangents (NaN frame)

**C102 Mesh hits stay inside the buffers and inside the triangle** - proved. SurfaceProps.v: `C102_construction` [-], `C102_hit_in_triangle` [AC].

**C103 Nodes of loaded models are placed by their matrices** - partial. SurfaceProps.v: `C103_faithful_partial` [ABC], `C103_mirrored_throws_partial` [ABC], `C103_shear_refuted` [ABC]. rotation times positive scales reproduced; mirrored rejected; small shears accepted and dropped

**C104 sRGB conversion is order-preserving and invertible** - partial. SrgbProps.v: `C104_decode_increasing` [ABCD], `C104_ends` [ABCD], `C104_encode_decode` [ABCD], `C104_integer_codes` [ABCD], `C104_decode_encode` [ABCD], `C104_images` [ABCD], `C104_encode_not_monotone_refuted` [ABCD], `C104_gap_refuted` [ABCD]. proved outside the gap of the published constants (all integer codes covered); refuted in it

**C105 Aperture samples are uniform over the aperture** - proved. ApertureProps.v: `C105_one_to_one` [ABCD], `C105_constant_density` [ABCD], `C105_factor_is_area` [ABC]. uniformity as a bijection with constant Jacobian determinant off the two diagonals (the change-of-variables integral itself is not stated)

**C106 Node setters obey the SPICE rules, and refuse atomically** - proved. SetterProps.v: `C106` [-]; TightProps5.v: `C106_gone` [-]. All setters of Node, for every reachable scene and node of the graph. Callbacks are accepted always (what that breaks is C10).

**C107 The McEwen law blends Lommel-Seeliger and Lambert by phase angle** - proved. McEwenProps.v: `C107_mcewen` [ABCD], `C107_opposition` [ABCD], `C107_between` [ABCD]. Exact reals, one spectral bin.

**C108 Cook-Torrance reported density is the density it samples with** - partial. VndfProps.v: `C108_density_partial` [ABCD], `C108_metal_partial` [ABCD]; VndfReach.v: `C108_diffuse_onto` [ABCD], `C108_diffuse_once` [ABCD], `C108_specular_onto_partial` [ABCD], `C108_specular_once_partial` [ABCD]. Proved for every regular view (regular_view): cos to the normal at least 1e-4, and either exactly on the normal or outside the cone where ggx_vndf_sample falls back to a fixed tangent. Missing: views within the fallback cone (there the code samples with a tangent that is not orthogonal to the stretched view, so the identity is only approximate) and grazing views. C108_case exhibits a concrete view. Real-number model (no rounding).

**C109 Light-time corrected state** - proved. LightTimeProps.v: `C109_light_time` [ABC], `C109_position` [ABC], `C109_at_rest` [ABC]. Fixed-point argument (contraction with factor v/c) over real arithmetic; true_state is read off the TRUE_STATE mode of the same API. Case: C109_case.

**C110 Manually placed nodes move as their velocities say** - partial. MotionProps.v: `C110_manual` [ABCD], `C110_moves` [ABCD], `C110_body_refuted` [ABCD]; TightProps4.v: `C110_observer` [ABC]. C110_manual gives the position and orientation at every time; C110_moves proves the derivative part for chains of inertial-rate nodes; C110_body_refuted shows it FALSE for set_body_angular_velocity: the reported angular velocity is the body-frame vector, so it is the true rate exactly when the initial orientation leaves it fixed. Cases: C110_case, C110_body_case.

**C111 SPICE-driven nodes report the ephemeris state wherever they hang** - partial. MotionProps.v: `C111_position` [ABC], `C111_rotation` [ABC], `C111_refuted_velocity` [ABC]; TightProps5.v: `C111_defined` [ABC], `C111_unknown` [ABC]. Position and orientation proved. C111_refuted_velocity: the velocity is FALSE: a position-only SPICE node under a moving parent gets the parent's velocity added (C111_case: 60 km/s in place of 30).

**C112 Angular velocity of a SPICE frame** - partial. MotionProps.v: `C112_partial` [ABC]. C112_partial: what sxform returns is rotation * w, not w: xf2rav's angular velocity is already in the base frame (from CSPICE's documentation, modelled) and the code rotates it again; equal only when the rotation fixes w. Case: C112_case.

**C113 Nadir-pointing callbacks** - partial. SkyProps.v: `C113` [ABC], `C113_unique` [AC], `C113_parallel` [ABC], `C113_refuted_rate` [ABCD]. Orientation proved and unique; C113_parallel: for parallel position and velocity the result is NaN (undefined). The angular velocity part is FALSE (C113_refuted_rate: returned as zero on a circular orbit). Case: C113_case.

**C114 Stars and objects in one direction are drawn in one direction** - partial. SkyProps.v: `C114_aberrated` [ABC], `C114_refuted` [ABC], `C114_refuted_distance` [ABC]. Proved for ABERRATED_STATE (direction). FALSE in the other two modes (stars are still aberrated: C114_refuted) and for the distance (C114_refuted_distance: the aberrated unit vector is shorter than one in some direction for every moving camera). Case: C114_case.

**C115 Proper motion of stars** - proved. SkyProps.v: `C115` [ABCD]. Case: C115_case.

**C116 The Hapke BSDF is Hapke's photometric model** - proved. HapkeProps.v: `C116_formula` [ABCD], `C116_lobes` [ABCD], `C116_surge` [ABCD]. Over the reals.

**C117 The camera's focal length, pixel pitch and focal length in pixels agree** - partial. FocalProps.v: `C117_consistent_partial` [ABCD], `C117_zoom` [ABCD], `C117_sensor_refuted` [ABCD]. Proved for every accepted history in which set_sensor is not called while the intrinsics are explicit; refuted for those: set_sensor then keeps the old focal length in pixels.

**C118 The solid angle of a pixel is the solid angle of its square** - proved. PixelSolidProps.v: `C118_pixel` [ABCD], `C118_image` [ABCD]. Over the reals; distortion excluded.

**C119 A sensor configuration reads back as given** - proved. FocalProps.v: `C119_from_pitch` [ABCD], `C119_from_size` [ABCD], `C119_intrinsics` [ABCD]. Over the reals.

**C120 A material shades with what its last edits say** - partial. MaterialProps.v: `C120_last_edits_partial` [ABCD], `C120_zero_factor_refuted` [AC], `C120_opaque` [AC], `C120_alpha_sticks_refuted` [AC], `C120_reset` [AC], `C120_reset_alpha` [AC]; TightProps2.v: `C120_reports_alpha` [AC]. Proved for histories without an explicit zero factor on metallic, transmission or emission; refuted for those (an image set later turns the factor into 1). has_alpha is sound but not exact.

**C121 Auxiliary channels show what the camera sees** - partial. AovProps.v: `C121_albedo_partial` [ABC], `C121_normals` [ABC], `C121_depth_partial` [ABC], `C121_depth_refuted_transparent` [ABC], `C121_depth_refuted_light` [ABC], `C121_albedo_refuted_nan` [ABC], `C121_id_partial` [ABC], `C121_id_refuted` [ABC]. Albedo holds when no sample is NaN, depth when no transparent surface or light is met first, id when the first path meets one surface only; each restriction is shown necessary by a refutation.

**C122 The background image surrounds the scene as a panorama** - partial. EnvProps.v: `C122_panorama_partial` [ABCD], `C122_bounds` [ABCD], `C122_uniform` [ABCD], `C122_seam` [ABCD], `C122_seam_refuted` [ABCD], `C122_down_refuted` [ABCD]. Proved off the poles and the seam. Refuted: at the seam the image jumps from the last to the first column, and straight down shows what straight up shows (wrap of v = 1 to 0). Exact reals.

**C123 TIFF images read as they are stored** - partial. TiffProps.v: `C123_samples_partial` [-], `C123_failing_tile_refuted` [-], `C123_long_row_refuted` [-], `C123_memory` [-], `C123_round_trip` [ABCD], `C123_written_level` [ABCD], `C123_nearest_refuted` [ABCD], `C123_colours_partial` [ABCD], `C123_extra_samples_refuted` [ABCD], `C123_photometric_refuted` [ABCD]; TightProps4.v: `C123_gray` [ABCD]. Placement proved for buffers up to 2^31 bytes and reads that succeed; refuted: a failing tile read goes unreported, rows above 2^31 bytes are read from a negative offset, the writer truncates, alpha before other extra samples is taken as a colour, YCbCr and Lab are returned as RGB. libtiff's own behaviour is assumed as documented.

**C124 Every slot of a loaded material shows its own file** - partial. TextureProps.v: `C124_textures_partial` [ABCD], `C124_shared` [ABCD], `C124_embedded_refuted` [ABCD], `C124_emission_refuted` [ABCD], `C124_hdr_refuted` [ABCD], `C124_gamma_refuted` [ABCD], `C124_order_refuted` [ABCD], `C124_two_files_refuted` [ABCD], `C124_two_roles_refuted` [ABCD], `C124_refuted` [ABCD]. Proved for files on disk that are sRGB or linear, linear emission, one role per file and roughness/metalness in one file. Refuted otherwise: embedded colour textures, emission textures and PNGs with their own gamma are not converted to light, HDR pictures are converted though they hold light, a file first used as emission is later shown unconverted and opaque as base colour, a separate metalness file is ignored. Exact reals.

**C125 PNG images read and write as they are** - partial. PngProps.v: `C125_pixels_partial` [ABCD], `C125_large_refuted` [ABCD], `C125_mono_partial` [ABCD], `C125_memory` [-], `C125_errors_partial` [-], `C125_truncated_refuted` [-], `C125_round_trip_partial` [ABCD], `C125_depth_refuted` [ABCD], `C125_colour_space_partial` [AC], `C125_gamma_refuted` [AC], `C125_chunk_order` [AC]. Proved below 2^31 pixels; libpng as documented. Refuted: larger pictures overflow int, a file cut off in its pixel data makes longjmp skip the destructors of two vectors (undefined behaviour), a 16 bit picture is written back with 8 bits because the bundle's bit_depth is not set on reading, gamma 2.2 and unknown colour spaces come back as sRGB.

**C126 JPEG images read as decoded and write completely** - partial. JpegProps.v: `C126_pixels_partial` [ABCD], `C126_mono_partial` [ABCD], `C126_large_refuted` [ABCD], `C126_linear_refuted` [ABCD], `C126_mean_refuted` [ABCD], `C126_read_errors_partial` [-], `C126_bad_arguments` [ABCD], `C126_write_partial` [ABCD], `C126_leak_refuted` [ABCD], `C126_flush_refuted` [ABCD], `C126_round_trip_partial` [ABCD]. Reading is proved below 2^31 bytes, beyond which the int size overflows. Values are not linearised (bundle says sRGB, documentation says linear); gray is TurboJPEG's luma, not the mean; a failed compression can leak its buffer; fclose is unchecked, so a late disk error goes unreported.

**C127 The diffraction PSF is the Airy pattern of the camera's aperture** - proved. AiryProps.v: `C127_bessel` [ABCD], `C127_pattern` [ABCD], `C127_range` [ABCD], `C127_tail` [ABC], `C127_round` [ABC], `C127_dark_ring` [ABCD]. Real arithmetic, one spectral channel. J1 is the sum of its power series (is_J1, infinite_sum). Below 8 the rational approximation is compared with the series by exact integer polynomial arithmetic; beyond 8 the difference satisfies Bessel's equation up to a small residual and is bounded by an energy (Lyapunov) argument from its value at 8. The code's function returns |J1| symmetry for negative arguments (J1 is odd), harmless since evaluate only passes positive ones and squares. The pattern theorem assumes f-number >= 0.01.

**C128 fetch-tycho2 never loses stars and its exit status can be trusted** - partial. CliProps.v: `C128_exit_zero_partial` [-], `C128_never_lost_partial` [-], `C128_force_recovers` [-], `C128_missing_file` [-], `C128_full_disk_refuted` [-], `C128_resume_refuted` [-], `C128_force_loses_refuted` [-], `C128_close_refuted` [-]. Proved when the disk takes every byte, libcurl reports success only for whole files and files left by earlier runs are whole. Refuted without that: no stream is checked after writing, so with a full disk the catalogue is cut off, the sources are removed by --clean and the status is 0; a run stopped inside a download leaves a part that the next run (without --force) takes as complete; --force destroys a good file when its download fails.

**C129 The command line tool runs exactly the command that was asked for** - proved. CliProps.v: `C129_dispatch` [-], `C129_in_bounds` [-], `C129_registry` [-].

**C130 NumPy arrays and Huira objects exchange the same elements** - partial. PyProps.v: `C130_vector_partial` [-], `C130_vector_shape` [-], `C130_reversed_refuted` [-], `C130_strided_refuted` [-], `C130_vector_to_numpy` [-], `C130_matrix` [-], `C130_matrix_shape` [-], `C130_image` [-], `C130_image_shape` [-], `C130_to_numpy` [-], `C130_view` [-], `C130_roundtrip` [-], `C130_overflow_refuted` [-], `C130_truncated_refuted` [-]; TightProps2.v: `C130_handed_out` [-]. Matrices and images (below 2^31 pixels) proved for all strides. Vectors and quaternions are proved for contiguous or converted arrays only: array_t<double> is declared without c_style, so a reversed view reads behind the array and a strided one takes the wrong elements (refuted). Images of 2^31 pixels or more overflow int (refuted).

**C131 NumPy views of frame buffer channels stay valid** - partial. PyProps.v: `C131_view_kept_partial` [-], `C131_disable_refuted` [-], `C131_assign_refuted` [-], `C131_gone` [-]. Proved for histories of fill, clear, enabling again and assignment of images of the same size. Refuted otherwise: enable_...(False) and the assignment of a larger image free the memory under the view, for good.

**C132 Reading an image by name decodes exactly that file** - partial. NameProps.v: `C132_format` [-], `C132_case_refuted` [-], `C132_whole_file` [-], `C132_reaches_decoder` [-], `C132_closed_partial` [-], `C132_leak_refuted` [-]. Proved for the spellings listed in the code; mixed case (.Jpg) is not recognised (refuted). The file is closed on every path except when the buffer cannot be allocated (refuted there).

**C133 Output files and directories are made ready** - partial. NameProps.v: `C133_nothing_lost` [-], `C133_file_ready_partial` [-], `C133_no_extension_refuted` [-], `C133_directory_partial` [-], `C133_dotted_directory_refuted` [-], `C133_blocked` [-]. A file name without extension becomes a directory and the image can never be written there; an output directory with a dot in its name is not created (both refuted).

**C134 A SPICE call returns its own answer or throws its own error** - proved. SpiceProps.v: `C134_calls` [-], `C134_no_abort` [-], `C134_history` [-], `C134_timout` [-]. Refinement: the wrapper with CSPICE's error flags refines a machine without flags, over all histories. What each SPICE function computes is a parameter of the environment.

**C135 Leap seconds are provided once and the user's are respected** - proved. SpiceProps.v: `C135_respects_user` [-], `C135_once` [-], `C135_retry` [-], `C135_pending_error` [-]. Holds for histories of wrapper calls. C135_pending_error refutes it when an error of a CSPICE call made by the user is pending: ensure_lsk_loaded does not reset it first, takes it for a missing LSK and loads the default over the user's.

**C136 SPICE functions can be called from several threads** - proved. SpiceProps.v: `C136_wrong_value` [-], `C136_foreign_error` [-], `C136_no_failure_no_interference` [-]. The claim of the header is REFUTED: a failing call can return normally with unwritten outputs (C136_wrong_value) and a good call can throw another thread's error (C136_foreign_error), because nothing serialises failed/reset/getmsg. Proved for every schedule: calls none of which fails do not disturb each other (given atomic CSPICE calls, a loaded LSK and the RETURN action).

**C137 Defocus blur kernels are the image of the aperture** - partial. DefocusProps.v: `C137_kernels` [ABC], `C137_fits` [ABC], `C137_refuted_cut` [ABC], `C137_agrees_with_rays` [ABC], `C137_refuted_not_square` [AC], `C137_refuted_negative` [AC]; TightProps3.v: `C137_unfocused` [ABC]. Proved: kernels exist, are non-negative, sum to 1, positive exactly within r+1/2, maximal within r-1/2; exact condition for the spot to fit the window; equivalence with depth-of-field rays for square pixels. Refuted: the spot is cut on the right/bottom for most sub-pixel positions; non-square pixels; negative focus distances.

**C138 Cached optics follow the camera's settings** - partial. OpticsProps.v: `C138_psf` [ABCD], `C138_refuted_psf` [ABCD], `C138_blur` [ABCD], `C138_refuted_blur` [ABCD], `C138_no_crash` [ABCD], `C138_refuted_crash` [ABCD], `C138_refuted_own_psf` [ABCD], `C138_size` [ABCD]. Proved over all histories: freshness after the refreshing calls until the sensor/aperture (PSF) or any geometry (blur) changes; no crash while memory lasts. Refuted: stale PSF after sensor or aperture changes, stale blur after f-number/focal changes, lost blur after set_aperture, null dereference after a failed use_aperture_psf, use_aperture_psf(false) deletes a user PSF.

**C139 Blur and PSF apply once and to everything** - partial. OpticsProps.v: `C139_once` [AC], `C139_defined` [AC], `C139_refuted_null` [ABCD], `C139_same_blur` [ABC], `C139_refuted_together` [ABCD]. Proved: exactly-once PSF with convolution on; exact definedness condition; same blur when depth of field is on and the blur is fresh. Refuted: convolution without a PSF is UB; stars blur without depth of field and stay sharp after set_aperture.

**C140 An unresolved object is drawn with its own irradiance** - partial. SharedProps.v: `C140_drawn` [ABCD], `C140_fixed` [ABCD], `C140_refuted_instances` [ABCD], `C140_refuted_views` [ABCD], `C140_refuted_light` [ABCD], `C140_refuted_own_light` [ABCD]. Proved: the last instance of an object in the view built last is drawn with its own irradiance; fixed objects keep theirs. Refuted by the code: several instances of one object, several views (also one whose construction failed), and a light asset with several instances.

**C141 Depth and normal maps show the order and direction they stand for** - partial. ColorMapProps.v: `C141_depth` [AC], `C141_order` [AC], `C141_refuted_flat` [AC], `C141_background` [AC], `C141_normals` [AC], `C141_rgb` [-]. Proved for every image with two different depths (or depth 0 nearest); refuted: an image whose finite depths are all equal gives NaN.

**C142 A catalogue star shines with its catalogue magnitude** - partial. StarLightProps.v: `C142_calibrated` [ABCD], `C142_five_magnitudes` [ABCD], `C142_bluer_is_hotter` [ABCD], `C142_refuted` [ABCD], `C142_temperature` [ABCD]. Proved for all colours B-V above -0.674, in exact arithmetic and with the 1000-sample sum the code itself uses; refuted below (negative temperature and solid angle) and for stars with a BT magnitude only (V = BT contradicts the assumed colour).

**C143 A star is where the catalogue says in the catalogue's year** - partial. StarLightProps.v: `C143` [ABCD], `C143_refuted` [ABC]. Declination always exact; direction exact for stars moving along a parallel or meridian only and for epoch 2000; otherwise the right ascension is off by at most the product of the two motions over cos(dec) (bound proved), and never exact (refuted).

**C144 Quantum efficiency stays a fraction and colours do not mix** - proved. QeProps.v: `C144_setter` [AC], `C144_history` [AC], `C144_electrons` [AC], `C144_range` [ABC], `C144_colours_apart` [ABC]. Exact reals; noise independence for generators whose next state does not depend on the standard deviation asked for.

**C145 The text of a quantity can be trusted** - partial. UnitTextProps.v: `C145_unit_text` [-], `C145_named` [-], `C145_si` [-], `C145_number` [AC], `C145_refuted` [AC]. The unit text is injective (proved). The number is the SI value to half a millionth for scalar quantities; false below that (prints 0) and false for spectral quantities, which show their own scale's numbers with the SI unit (C145_refuted).

**C146 A crash leaves one report, a log and a dead process** - partial. CrashProps.v: `C146_once` [-], `C146_honest` [-], `C146_stops` [-], `C146_progress` [-], `C146_log` [-], `C146_disabled` [-], `C146_refuted_two` [-], `C146_refuted_disabled` [-], `C146_refuted_allocator` [-], `C146_refuted_disk` [-]; TightProps3.v: `C146_nested` [-]. At most one report, termination (ranking) and the log of an undisturbed crash are proved for all interleavings; abort() and exceptions with the handler disabled too. Refuted: two threads crashing together lose the log; with the handler disabled a fault loops for ever; a crash inside the allocator hangs; an incomplete log is reported as written.

**C147 Quantities in Python** - partial. PyQuantityProps.v: `C147_import` [-], `C147_add` [ABC], `C147_scale_partial` [ABC], `C147_compare` [ABC], `C147_iadd_partial` [ABC], `C147_refuted_celsius` [ABC], `C147_alias` [ABC], `C147_argument` [ABC], `C147_refuted_dimension` [ABC], `C147_refuted_meter_second` [ABC], `C147_typed` [-], `C147_refuted_implicit` [-], `C147_refuted_kilometer` [-], `C147_reject` [ABC], `C147_no_products` [AC], `C147_time` [ABC]; PyUnitsProps.v: `C147_dimensions` [-], `C147_sizes` [ABC]; TightProps3.v: `C147_fresh` [ABC]. Same-dimension arithmetic, comparisons, arguments and Time are proved for all classes and values; missing checks, Celsius +=, implicit conversions refuted.

**C148 FITS metadata survive writing and reading** - partial. FitsHeaderProps.v: `C148_round_trip_partial` [ABCD], `C148_written` [ABCD], `C148_distinct` [ABCD], `C148_range` [AC], `C148_numbers` [ABCD], `C148_exptime` [ABCD], `C148_refuted_number` [ABCD], `C148_refuted_wcs` [ABCD], `C148_refuted_comments` [ABCD], `C148_refuted_blank` [ABCD], `C148_refuted_unreadable` [ABCD], `C148_refuted_structure` [ABCD], `C148_refuted_range` [ABCD]; TightProps3.v: `C148_structure` [ABCD], `C148_extremes` [AC]; TightProps5.v: `C148_bad_number` [ABCD]. Round trip proved for all metadata the header can carry (texts of at most 68 characters without trailing blanks, custom keywords with their own names, WCS with a first axis). False beyond that, each with a proved refutation: doubles beyond 11 digits, WCS fields without a first axis, two more comments per cycle, a BLANK keyword that appears, custom keywords that overwrite NAXIS1 or make the file unreadable, DATAMIN > DATAMAX without a finite pixel. CFITSIO's documented behaviour is part of the model (trusted).

**C149 Quaternions read from a rotation are that rotation** - partial. QuatProps.v: `C149_get` [ABC], `C149_set` [ABC], `C149_product` [ABC], `C149_refuted_shuster` [ABC], `C149_refuted_length` [ABC]. Proved for all rotations and unit quaternions in exact arithmetic (GLM's quat_cast and mat3_cast as documented). Refuted: the Shuster quaternion has Shuster's component order but Hamilton's sign, so Shuster's attitude matrix of it is the inverse of the rotation; quaternions that are not of length one are neither rejected (zero is taken for the identity) nor normalised.

**C150 Loading a model file gives exactly the file's triangles, materials and placements, or leaves the scene as it was** - partial. LoadProps.v: `C150_triangles` [ABC], `C150_places` [ABC], `C150_returns` [ABC], `C150_kept` [ABC], `C150_unreadable` [-], `C150_name` [ABC], `C150_refuted_atomic` [ABC], `C150_refuted_default_material` [ABC], `C150_refuted_faces` [ABC], `C150_refuted_missing_mesh` [ABC]. Proved for every parsed file and scene: the triangles, materials and placements, the exact condition for acceptance, that earlier contents are kept, the name. Refuted: a load that throws leaves a model of that name (and whatever was converted) in the scene, so the repaired file loads under another name; a mesh without material throws although the log announces the default material; faces of other than three corners vanish silently; an unknown mesh number is ignored at the root and fatal below. Not covered: ASSIMP's own parsing, material contents (C-properties on textures), counts near 2^31.

**C151 Dates and moments survive double precision** - partial. JulianProps.v: `C151_date_exact` [ABCD], `C151_date_order` [ABCD], `C151_date_moment` [ABCD], `C151_moment_error` [ABCD], `C151_modified_error` [ABCD], `C151_modified_exact` [ABCD], `C151_refuted_modified` [ABCD], `C151_refuted_moment` [ABCD], `C151_duration_error` [ABCD], `C151_refuted_duration` [ABCD], `C151_years` [ABCD], `C151_modified_moment` [ABCD]. TDB only (the other scales go through SPICE). Proved with binary64 rounding: Julian dates 1037-4870 return unchanged and keep their order; error bounds for moments, modified dates, durations and years. Refuted: a modified Julian date need not come back (the offset costs six bits; exact for multiples of 2^-31 day, otherwise within 20 microseconds); a moment need not come back from its Julian date; an interval of 60 ns started in 2034 has no duration.

**C152 The stars of a scene are those of the last load, at the last epoch asked for** - partial. StarSceneProps.v: `C152` [ABC], `C152_no_ub` [ABC], `C152_failure` [ABC], `C152_back` [ABC], `C152_refuted_kernels` [ABC], `C152_refuted_log` [ABC], `C152_throws` [ABC]. Proved for all histories, catalogues, kernels that agree with each other and schedules, when a moment with known years can be formatted for the log. Refuted without these: after another leap second kernel is loaded, asking for the same epoch again changes nothing; if formatting the log message throws, update_star_epoch throws although the stars have moved. Real arithmetic; epochs finite.

**C153 A node on a Keplerian orbit follows the orbit asked for** - partial. KeplerProps.v: `C153_two_body` [ABCD], `C153_plane` [ABC], `C153_periapsis` [ABCD], `C153_circular` [ABCD], `C153_invalid` [ABC], `C153_refuted_size` [ABCD], `C153_refuted_period` [ABCD]. Proved: the motion is two-body motion, in the plane and direction asked for; circular orbits have the radius and period asked for. Refuted for every 0 < e < 1: conics_c takes its first element for the periapsis distance, but the code passes the semi-major axis, so the distance runs from a to a(1+e)/(1-e) and the period is longer than asked. Elements that give no orbit are accepted and throw when the node is evaluated (C153_invalid). conics_c is modelled from CSPICE's documentation; parabolas and hyperbolas are not modelled.

**C154 Spectrum arithmetic works bin by bin** - partial. SpectrumOpsProps.v: `C154_number` [ABCD], `C154_spectrum` [ABCD], `C154_own_bin_partial` [ABCD], `C154_refuted_normalise` [ABCD], `C154_last_bin` [ABCD], `C154_braces_partial` [-], `C154_refuted_braces` [-], `C154_list` [ABCD], `C154_index` [ABCD], `C154_refuted_negative_index` [ABCD], `C154_iterate` [ABCD], `C154_python_arith_partial` [ABCD], `C154_refuted_left` [ABCD], `C154_equal` [ABCD], `C154_assign` [ABCD], `C154_python_normalise` [ABCD], `C154_rounding` [ABCD]; TightProps3.v: `C154_fresh` [ABCD]. Proved: all operators bin by bin for separate numbers and spectra (and for the spectrum itself); Python's list, index, iteration and assignment behaviour. Refuted: operator op=(const U&) reads its argument through the reference in every step, so s /= s[0] and s -= s[0] leave all bins but the first unchanged; {a, b} with fewer values than bins leaves bins uninitialised and with more drops values; in Python negative indices and a number on the left of +, -, / raise TypeError. pybind11's behaviour is modelled as documented.

**C155 An exposure's moments lie in the exposure, in order, at the precision of a double** - partial. ExposureProps.v: `C155_center_inside` [ABCD], `C155_duration_sign` [ABCD], `C155_samples_order` [ABCD], `C155_instant` [ABCD], `C155_centered` [ABCD], `C155_center_error` [ABCD], `C155_samples_even` [ABCD], `C155_refuted_inside` [ABCD], `C155_from_start` [ABCD], `C155_count` [ABCD]. Binary64 rounding with gradual underflow; no overflow. Refuted: the last sample may come after the end (188 samples of [0 s, 3 s] after J2000); it is never later than a quarter microsecond in the stated range.

