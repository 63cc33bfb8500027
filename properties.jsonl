{"id": "C01", "title": "Log dump is the most recent accepted messages, oldest first", "statement": "After any history of Logger::set_level, Logger::log and Logger::set_buffer_size calls, Logger::dump_to_file writes exactly the non-empty messages among the most recent accepted log calls that fit in the buffer, each once, oldest first; resizing keeps the most recent entries that fit in both sizes and a requested size of 0 behaves as 1.", "quantifier": "every finite sequence of set_level/log/set_buffer_size calls (fewer than 2^64 accepted messages), every buffer size, every message text and level", "why_tests_cant": "The ring buffer wraps at a position that depends on the whole history, including earlier resizes; a test fixes one history.", "anchors": ["include/huira_impl/util/logger.ipp: Logger::set_buffer_size, Logger::log, Logger::dump_to_file"]}
{"id": "C02", "title": "Console verbosity hierarchy holds whenever no toggle is in progress", "statement": "Whenever no enable_console_* call is in progress, debug output enabled implies info output enabled and info enabled implies warning enabled, whatever set of threads called enable_console_debug/info/warning concurrently before.", "quantifier": "every number of threads, every program of enable_console_* calls per thread and every sequentially consistent interleaving of their individual atomic stores", "why_tests_cant": "The number of interleavings is unbounded and a violating one may never be scheduled under test.", "anchors": ["include/huira_impl/util/logger.ipp: Logger::enable_console_debug, enable_console_info, enable_console_warning"]}
{"id": "C03", "title": "Every accepted message reaches the custom sink exactly once and in order; errors are never filtered", "statement": "For every history of level changes, sink installations and log calls, the installed sink receives exactly the messages whose level is at least the current minimum level, once each and in call order; a message at the Error level is accepted under every minimum level; a sink that throws changes nothing that the logger later does.", "quantifier": "every call history, every sink behaviour (throwing or not) and every level setting", "why_tests_cant": "Ranges over all histories and over all behaviours of a user supplied callback.", "anchors": ["include/huira_impl/util/logger.ipp: Logger::log, Logger::set_custom_sink", "include/huira/util/logger.hpp: LogLevel"]}
{"id": "C04", "title": "Concurrent log calls never write one buffer slot at the same time", "statement": "While several threads are inside Logger::log, no two of them write the same buffer entry, so the buffer never holds a torn entry.", "quantifier": "every number of threads and every interleaving of the ticket and write steps of log", "why_tests_cant": "The collision needs a thread to be paused while the buffer wraps around; schedules of that kind are not hit by tests.", "anchors": ["include/huira_impl/util/logger.ipp: Logger::log (lines 191-194)"]}
{"id": "C05", "title": "Names in a scene are unique and lookups return the object that carries the name", "statement": "After any history of adding new objects, removing objects and renaming objects through the scene's name registry, all live objects have pairwise different names, looking up the name of a live object returns that object, and looking up any other name throws.", "quantifier": "every finite history of add/remove/set_name calls with any requested names, including duplicates and names that look like generated ones (a_1)", "why_tests_cant": "Collisions with generated suffixes arise only for particular histories of names.", "anchors": ["include/huira_impl/scene/name_registry.ipp: NameRegistry::add, remove, set_name, lookup, make_unique_name_"]}
{"id": "C06", "title": "A generated name is the first free one", "statement": "Adding an object under a name that is free keeps the name unchanged; otherwise the object gets the name with suffix _k for the least k >= 1 that is free, and the search always terminates.", "quantifier": "every set of names in use and every requested name", "why_tests_cant": "Termination and minimality range over all finite name sets.", "anchors": ["include/huira_impl/scene/name_registry.ipp: NameRegistry::make_unique_name_"]}
{"id": "C07", "title": "Renaming an object to the name it already has does nothing", "statement": "Calling set_name on an object with its current name leaves the object's name and every lookup unchanged.", "quantifier": "every registry state and every live object in it", "why_tests_cant": "Universal over states; a test that renames to a different name never meets it.", "anchors": ["include/huira_impl/scene/name_registry.ipp: NameRegistry::set_name"]}
{"id": "C08", "title": "Deleting a child frame or instance removes it and its subtree from the scene graph", "statement": "FrameNode::delete_child on a node that is a child of the frame removes the node from the frame's children and from the scene; on any other node it throws and changes nothing.", "quantifier": "every scene graph built through the API and every node of it", "why_tests_cant": "Must hold for every graph shape and every construction history.", "anchors": ["include/huira_impl/scene/frame_node.ipp: FrameNode::delete_child, new_child_, new_instance_", "include/huira_impl/scene/name_registry.ipp: NameRegistry::remove"]}
{"id": "C09", "title": "No dangling assets: after an asset is deleted nothing in the scene refers to it", "statement": "When Scene::delete_geometry, delete_primitive, delete_light, delete_unresolved_object, delete_camera_model or delete_model returns normally, the asset is gone from the scene and no remaining primitive, model or instance refers to it; when it throws, the scene is unchanged.", "quantifier": "every scene state reachable through the API and every asset", "why_tests_cant": "Every scene state and every combination of dependants.", "anchors": ["include/huira_impl/scene/scene.ipp: Scene::delete_geometry, delete_primitive, delete_light, delete_model, prune_graph_references_", "include/huira_impl/scene/scene_view.ipp: SceneView"]}
{"id": "C10", "title": "A SPICE-driven node always sits under a parent it can be resolved against", "statement": "In every scene graph reachable through the node handle API, a node whose position is read from SPICE has a parent whose position is also read from SPICE, and likewise for rotation, so the scene view can always form the relative transform.", "quantifier": "every graph and every history of set_position/set_rotation/set_spice*/callback calls", "why_tests_cant": "Invariant over unbounded histories of mutations on unbounded trees.", "anchors": ["include/huira_impl/scene/node.ipp: Node::set_position, set_rotation, set_spice_origin, set_spice_frame, set_position_callback, set_rotation_callback"]}
{"id": "C11", "title": "Node getters return what the matching setter stored", "statement": "After set_rotation, set_angular_velocity or set_spice_frame, the getter of that same quantity returns the stored value whatever the mode of the node's position, and a getter for a quantity that is not static throws.", "quantifier": "every combination of position, velocity and rotation modes reached by any history of setters", "why_tests_cant": "Mode combinations multiply with histories.", "anchors": ["include/huira_impl/scene/node.ipp: Node::get_static_rotation, get_static_angular_velocity, get_spice_frame"]}
{"id": "C12", "title": "The medium stack is restored by every well nested traversal and never overflows", "statement": "A ray that enters and leaves any well nested family of volumes, of any depth up to the capacity, ends with the medium it started with, the current medium is always that of the innermost volume entered, and the stack never holds more than its capacity whatever the sequence of boundary crossings.", "quantifier": "every sequence of boundary crossings, every nesting", "why_tests_cant": "Nesting structure is unbounded.", "anchors": ["include/huira/volumes/medium_stack.hpp: MediumStack::toggle, current"]}
{"id": "C13", "title": "Overlapping volumes: leaving a volume removes its medium", "statement": "After a ray has left a volume through its boundary, that volume's medium is no longer on the stack, also when volumes overlap without being nested.", "quantifier": "every sequence of boundary crossings in which each volume is entered and left alternately", "why_tests_cant": "Order of crossings for overlapping volumes is unbounded.", "anchors": ["include/huira/volumes/medium_stack.hpp: MediumStack::toggle"]}
{"id": "C14", "title": "Frame buffer channels are enabled, cleared and read independently", "statement": "After any sequence of enable_* and clear calls, has_* is true exactly for the channels last enabled with true, clear resets every enabled channel to its default value everywhere and leaves disabled channels empty, and enabling one channel never changes the contents of another.", "quantifier": "every sequence of enable/clear calls and every resolution", "why_tests_cant": "All sequences of toggles over all channel pairs.", "anchors": ["include/huira/render/frame_buffer.hpp: FrameBuffer::enable_*, has_*, clear"]}
{"id": "C15", "title": "Star catalogue file round trip", "statement": "Reading a star catalogue written by write_star_data returns exactly the stars with a comparable (non NaN) magnitude that were written, sorted by magnitude, with every field unchanged.", "quantifier": "every finite list of stars with any field values", "why_tests_cant": "Ranges over all catalogues; sortedness and loss can depend on any single entry.", "anchors": ["include/huira_impl/stars/io/star_catalog.ipp: write_star_data, read_star_data, clip_star_data"]}
{"id": "C16", "title": "Magnitude cutoff on reading a catalogue equals filtering", "statement": "Reading a catalogue with a magnitude limit returns exactly the stars whose magnitude does not exceed the limit, in file order.", "quantifier": "every catalogue written by the library and every limit", "why_tests_cant": "Off-by-one errors of the binary search depend on ties and sizes.", "anchors": ["include/huira_impl/stars/io/star_catalog.ipp: read_star_data"]}
{"id": "C17", "title": "A damaged catalogue file is rejected", "statement": "Reading a file that is not a complete catalogue (wrong magic, wrong version, or fewer bytes than the header promises) throws instead of returning stars.", "quantifier": "every byte string presented as a catalogue file", "why_tests_cant": "All truncation points of all files.", "anchors": ["include/huira_impl/stars/io/star_catalog.ipp: read_star_data"]}
{"id": "C18", "title": "Packed Tycho-2 identifiers are injective and reversible", "statement": "For every valid Tycho-2 triple (tyc1 < 2^14, tyc2 < 2^16, tyc3 < 2^4) unpacking the packed identifier gives the triple back, hence different triples have different identifiers.", "quantifier": "every triple of identifiers, including out of range ones for which the failure is characterised", "why_tests_cant": "2^34 triples.", "anchors": ["include/huira/stars/io/tycho2_id.hpp: pack/unpack"]}
{"id": "C19", "title": "The Tycho-2 loader stays inside its buffer and keeps star fields separate", "statement": "Loading any text file stores each accepted star inside the allocated array, and the fields of a star come only from its own line.", "quantifier": "every input file", "why_tests_cant": "Depends on line structure of arbitrary files (missing final newline, rejected lines).", "anchors": ["include/huira_impl/stars/io/load_tycho2.ipp: load_tycho2"]}
{"id": "C20", "title": "Clipped triangles lie inside the frustum and inside the triangle", "statement": "Frustum::clip_triangle always returns normally; every vertex of every returned triangle satisfies all frustum planes and interpolates the input triangle's vertices with the same weights for position and attributes; the returned triangles cover exactly the part of the triangle inside all planes; a triangle entirely inside is returned unchanged up to rotation of its vertices and one entirely outside any plane yields nothing.", "quantifier": "every triangle and every finite list of planes (real arithmetic)", "why_tests_cant": "Continuum of inputs; degenerate positions are missed by sampling.", "anchors": ["include/huira_impl/render/frustum.ipp: Frustum::clip_triangle, clip_polygon_by_plane_"]}
{"id": "C21", "title": "Interval list intersection is exact", "statement": "Intersecting two sorted lists of disjoint intervals gives a sorted list of disjoint intervals that contains a parameter exactly when both inputs contain it, up to shared end points.", "quantifier": "every pair of sorted disjoint interval lists of any length", "why_tests_cant": "Two-pointer merge over unbounded lists.", "anchors": ["include/huira_impl/render/frustum.ipp: Frustum::intersect_intervals_"]}
{"id": "C22", "title": "Everything that projects into the image passes the camera frustum test", "statement": "A point in front of the camera whose projection falls inside the image rectangle is never culled by the frustum that the camera reports.", "quantifier": "every camera resolution and intrinsics and every point", "why_tests_cant": "Boundary strips of a continuum of points.", "anchors": ["include/huira_impl/cameras/camera_model.ipp: CameraModel::compute_frustum_, project_point"]}
{"id": "C23", "title": "Arc clipping returns exactly the visible parameter range", "statement": "For every arc and every set of planes, given the crossings of the arc with each plane (exact, at least 1e-6 apart and from the ends of the range, which is the resolution of the clipper), the reported parameter intervals are sorted and disjoint, the arc is inside every plane on them, and every parameter at which the arc is strictly inside all planes is in one of them.", "quantifier": "every arc, plane and finite sorted root list", "why_tests_cant": "Sign patterns between arbitrary many roots.", "anchors": ["include/huira_impl/render/frustum.ipp: Frustum::arc_intervals_, clip_arc"]}
{"id": "C24", "title": "Tiles partition the image", "statement": "The path tracing tiles and the unresolved-object tiles visit each pixel of the image exactly once, for every image size, and never a pixel outside.", "quantifier": "every image width and height", "why_tests_cant": "All resolutions, in particular those that are not multiples of the tile size.", "anchors": ["include/huira_impl/render/renderer.ipp: Renderer::path_trace_ (137-152), render_unresolved_"]}
{"id": "C25", "title": "A rendered image does not depend on the thread schedule", "statement": "The per-pixel time and random samples used for a pixel depend only on the scene, the settings and the pixel, not on how tiles are scheduled onto threads.", "quantifier": "every assignment and interleaving of tiles on threads", "why_tests_cant": "Schedules cannot be enumerated by tests.", "anchors": ["include/huira_impl/render/renderer.ipp: Renderer::path_trace_ (lines 137-160: shared time, shared sampler_)"]}
{"id": "C26", "title": "Trail weights distribute exactly the received energy", "statement": "The weights given to the sub-samples of a moving unresolved object's trail are non-negative and sum to the fraction of the exposure during which it is visible.", "quantifier": "every list of visible intervals and every number of sub-samples", "why_tests_cant": "Unbounded interval lists.", "anchors": ["include/huira_impl/render/renderer.ipp: Renderer::render_unresolved_ (759-840)"]}
{"id": "C27", "title": "An unresolved object inside the image is drawn", "statement": "Every unresolved object whose nearest pixel lies inside the image deposits its full power on that pixel when no PSF is configured.", "quantifier": "every projected position and every image size", "why_tests_cant": "Tile boundaries meet rounding only at particular positions.", "anchors": ["include/huira_impl/render/renderer.ipp: Renderer::render_unresolved_ (binning; 961-967)"]}
{"id": "C28", "title": "PSF stamps stay inside their buffers and lose nothing inside the image", "statement": "Every pixel written while stamping a PSF lies inside the tile's padded buffer, and every stamp pixel that falls inside the image is deposited exactly once.", "quantifier": "every position, stamp radius, tile and image size", "why_tests_cant": "All offsets against all tile borders.", "anchors": ["include/huira_impl/render/renderer.ipp: Renderer::render_unresolved_ (909-1012)"]}
{"id": "C29", "title": "Veiling glare conserves total power", "statement": "Adding veiling glare redistributes power over the image without changing the total, and keeps non-negative images non-negative.", "quantifier": "every image and every veiling fraction in [0,1]", "why_tests_cant": "All images.", "anchors": ["include/huira_impl/render/renderer.ipp: veiling glare (45-59)", "include/huira_impl/cameras/camera_model.ipp: veiling alpha (342-350)"]}
{"id": "C30", "title": "Multiple importance sampling weights are a partition of unity", "statement": "For every pair of non-negative densities that are not both zero, the weights of the two strategies are in [0,1] and sum to 1; and for both zero they are 0.", "quantifier": "all non-negative real densities", "why_tests_cant": "Continuum.", "anchors": ["include/huira_impl/render/renderer.ipp: power_heuristic (64-72)"]}
{"id": "C31", "title": "Distortion: zero coefficients are the identity, and undistort inverts distort when the model contracts", "statement": "A Brown or Owen model with zero coefficients leaves points unchanged in both directions, and for every coefficient set for which the distortion offset is a contraction, the undistort iteration converges to the unique preimage with a geometric error bound.", "quantifier": "all points, all coefficients, any number of iterations", "why_tests_cant": "Continuum of points and coefficients.", "anchors": ["include/huira_impl/cameras/distortion/brown_distortion.ipp", "include/huira_impl/cameras/distortion/owen_distortion.ipp"]}
{"id": "C32", "title": "OpenCV distortion with zero coefficients is the identity", "statement": "An OpenCV distortion model with all coefficients zero maps every point to itself in both directions.", "quantifier": "all points", "why_tests_cant": "Must hold for every point; and comparisons with images hide it when no test uses the model alone.", "anchors": ["include/huira_impl/cameras/distortion/opencv_distortion.ipp"]}
{"id": "C33", "title": "Pixel projection and pixel direction are mutual inverses", "statement": "Without distortion, projecting a point along the direction of a pixel returns that pixel, and the direction of the projection of a visible point is parallel to the point, for both image conventions.", "quantifier": "all pixels, all points in front of the camera, all intrinsics with non-zero focal lengths", "why_tests_cant": "Continuum.", "anchors": ["include/huira_impl/cameras/camera_model.ipp: project_point, pixel_to_direction_"]}
{"id": "C34", "title": "A camera setter that throws leaves the camera unchanged", "statement": "When set_focal_length, set_fstop, set_focus_distance, set_sensor_* or a sensor setter rejects its argument by throwing, the camera's observable configuration is the same as before the call.", "quantifier": "every camera state and every invalid argument", "why_tests_cant": "All states times all invalid values including NaN.", "anchors": ["include/huira_impl/cameras/camera_model.ipp: set_focal_length (34-52)", "include/huira_impl/cameras/sensors/sensor_model.ipp"]}
{"id": "C35", "title": "Setting an intrinsic matrix K makes the camera project with K", "statement": "After set_intrinsic_matrix(K) for a standard pinhole matrix K, a point is projected to K times the point, including the principal point.", "quantifier": "all pinhole matrices and points", "why_tests_cant": "Continuum; a test with a symmetric principal point hides it.", "anchors": ["include/huira_impl/cameras/camera_model.ipp: set_intrinsic_matrix (225-235)"]}
{"id": "C36", "title": "Cached camera data agree with the configuration", "statement": "After any sequence of configuration calls on a camera, its distortion field, solid angle map and frustum are those of the current sensor, intrinsics and distortion.", "quantifier": "every sequence of configuration calls", "why_tests_cant": "Staleness depends on the order of calls.", "anchors": ["include/huira_impl/cameras/camera_model.ipp: configure_sensor_* (127-216), set_sensor, set_distortion"]}
{"id": "C37", "title": "Trajectory arcs pass through their samples", "statement": "The polynomial arc built from 1, 2 or 3 samples and the spline built from any larger number of samples equal the sample positions at the sample parameters i/(N-1).", "quantifier": "every number of samples and every sample position (real arithmetic)", "why_tests_cant": "Continuum of samples, unbounded number.", "anchors": ["include/huira_impl/render/trajectory_arc.ipp: build_polynomial (71-93), build_cubic_spline (106-165), evaluate"]}
{"id": "C38", "title": "Spline trajectories are smooth", "statement": "The spline built from any number of samples is continuously differentiable twice at the inner knots and has zero second derivative at its ends.", "quantifier": "every number of samples >= 3 and all positions", "why_tests_cant": "Needs the tridiagonal solve to be exact for every size.", "anchors": ["include/huira_impl/render/trajectory_arc.ipp: build_cubic_spline (106-165)"]}
{"id": "C39", "title": "The arc root finders return exactly the real roots in range", "statement": "solve_linear, solve_quadratic and solve_cubic return every real root of the given polynomial in [0,1] and nothing else.", "quantifier": "all real coefficients", "why_tests_cant": "Continuum of coefficients with case splits by discriminant.", "anchors": ["include/huira_impl/render/trajectory_arc.ipp: solve_linear, solve_quadratic, solve_cubic"]}
{"id": "C40", "title": "Image pixel addressing is a bijection and out-of-range access is rejected", "statement": "For every image, distinct in-range pixel coordinates address distinct stored pixels covering the whole buffer, and every coordinate pair out of range makes at() throw.", "quantifier": "all image sizes and all integer coordinates", "why_tests_cant": "All sizes and coordinates, in particular negative ones and sizes whose product overflows.", "anchors": ["include/huira_impl/images/image.ipp: Image::at, operator()", "include/huira/images/image.hpp"]}
{"id": "C41", "title": "Sampling an image stays within the image and within the range of its pixels", "statement": "For every wrap mode, sampling at any finite coordinates reads only existing pixels, and the result of bilinear or nearest sampling lies between the least and the greatest pixel value; sampling at a pixel centre returns that pixel.", "quantifier": "all images, all real coordinates, all wrap modes", "why_tests_cant": "Continuum of coordinates.", "anchors": ["include/huira_impl/images/image.ipp: Image::sample_nearest, sample_bilinear, wrap"]}
{"id": "C42", "title": "Both convolution paths compute the same result", "statement": "Image convolution gives the same result whether it is evaluated directly (small kernels) or through the frequency domain (large kernels).", "quantifier": "all images and kernels", "why_tests_cant": "All kernel sizes around the switch, asymmetric kernels.", "anchors": ["include/huira_impl/images/image.ipp: convolve"]}
{"id": "C43", "title": "BMP decoding is memory safe and rejects truncated files", "statement": "For every byte string, decoding as BMP reads no byte outside the input and writes no pixel outside the image, and either throws or yields an image of the declared size with rows in the declared order.", "quantifier": "all byte strings", "why_tests_cant": "Adversarial headers.", "anchors": ["include/huira_impl/images/io/bmp_io.ipp"]}
{"id": "C44", "title": "TGA decoding is memory safe", "statement": "For every byte string, decoding as TGA reads no byte outside the input and writes no byte outside the pixel buffer, whatever run lengths and colour map indices the data contain.", "quantifier": "all byte strings", "why_tests_cant": "Adversarial run-length packets and palettes.", "anchors": ["include/huira_impl/images/io/tga_io.ipp"]}
{"id": "C45", "title": "HDR scanline decoding is memory safe and inverts run-length encoding", "statement": "For every byte string, decoding a Radiance HDR scanline reads and writes only inside its buffers, and decoding a valid run-length encoding of a scanline returns the scanline.", "quantifier": "all byte strings and all encodings", "why_tests_cant": "Adversarial runs.", "anchors": ["include/huira_impl/images/io/hdr_io.ipp"]}
{"id": "C46", "title": "Integer pixel conversion round trips", "statement": "Converting an 8-bit or 16-bit integer pixel value to floating point and back returns the same value, the conversion is monotone and saturates outside [0,1].", "quantifier": "all 8 and 16-bit values; all real inputs for saturation and monotonicity", "why_tests_cant": "Rounding near half-way points.", "anchors": ["include/huira_impl/images/io/convert_pixel.ipp"]}
{"id": "C47", "title": "FITS write/read keeps the image upright", "statement": "The row reordering applied on writing a FITS image is undone on reading for every image size, and pixel (x,y) is stored where the FITS convention wants it.", "quantifier": "all image sizes and contents", "why_tests_cant": "All sizes, odd and even.", "anchors": ["include/huira_impl/images/io/fits_io.ipp"]}
{"id": "C48", "title": "Sample times over an interval are evenly spaced and stay inside", "statement": "The sample times of an exposure interval are N values inside the interval, equally spaced and covering both ends when N >= 2, the centre when N = 1, and a request for 0 samples throws.", "quantifier": "all intervals and all N", "why_tests_cant": "All N.", "anchors": ["include/huira/core/interval.hpp", "include/huira_impl/core/time.ipp"]}
{"id": "C49", "title": "Unit conversions are exact inverses and compose", "statement": "Converting a quantity from unit A to B and back returns the value, and converting A to B to C equals converting A to C, for all units including the affine temperature scales.", "quantifier": "all units, all real values", "why_tests_cant": "All pairs and triples of units and all values.", "anchors": ["include/huira/units/quantity.hpp", "include/huira_impl/units/quantity.ipp", "include/huira/units/units.hpp"]}
{"id": "C50", "title": "Rotations stay rotations", "statement": "Every rotation that the API builds (axis-angle, Euler sequences, composition, inverse, from matrix) is orthonormal with determinant 1; the inverse undoes it; extrinsic Euler angles equal intrinsic ones in reverse order.", "quantifier": "all angles, axes, sequences and compositions (real arithmetic)", "why_tests_cant": "Continuum.", "anchors": ["include/huira_impl/core/rotation.ipp"]}
{"id": "C51", "title": "Transforms compose and invert, and agree with their matrix", "statement": "Applying a composed transform equals applying the parts in turn, applying the inverse undoes a transform, and the 4x4 matrix of a transform acts on points as the transform does.", "quantifier": "all transforms and points (real arithmetic)", "why_tests_cant": "Continuum; unit scales and zero translations hide the failure.", "anchors": ["include/huira_impl/core/transform.ipp"]}
{"id": "C52", "title": "Spectral bins conserve totals", "statement": "Spreading a total over the bins of a spectrum gives non-negative bins whose sum is the total, and element-wise operations act bin by bin.", "quantifier": "all totals, all numbers of bins", "why_tests_cant": "All bin layouts.", "anchors": ["include/huira_impl/core/spectral_bins.ipp"]}
{"id": "C53", "title": "Stellar aberration returns a direction", "statement": "The aberrated direction of a unit direction is a unit vector for every observer velocity below light speed, and equals the direction when the observer is at rest.", "quantifier": "all directions and velocities", "why_tests_cant": "Continuum; small velocities hide the error.", "anchors": ["include/huira_impl/core/physics.ipp: compute_aberrated_direction"]}
{"id": "C54", "title": "Sensor read-out is bounded and monotone", "statement": "With noise disabled the digital output lies in [0,1] for every signal, is monotone in the signal, and saturates exactly from full well on.", "quantifier": "all signals and all valid sensor configurations", "why_tests_cant": "Continuum of configurations.", "anchors": ["include/huira_impl/cameras/sensors/simple_sensor.ipp", "include/huira_impl/cameras/sensors/sensor_model.ipp"]}
{"id": "C55", "title": "A sphere light emits the power it was given and its sampling density is consistent", "statement": "The total emitted power of a sphere light equals the power set, and the density that sample_li reports for a direction equals the one pdf_li reports for it.", "quantifier": "all powers, radii, distances and random numbers", "why_tests_cant": "Continuum; bins multiply.", "anchors": ["include/huira_impl/assets/lights/sphere_light.ipp"]}
{"id": "C56", "title": "BSDF samples are consistent with evaluation, and BSDFs are reciprocal", "statement": "The weight returned by sampling a BSDF equals value times cosine over density for the sampled direction, directions below the surface evaluate to zero, and the value is symmetric in the two directions.", "quantifier": "all directions, parameters and random numbers", "why_tests_cant": "Continuum.", "anchors": ["include/huira_impl/materials/bsdfs/lambertian_bsdf.ipp", "include/huira_impl/materials/bsdfs/oren_nayar_bsdf.ipp", "include/huira_impl/materials/bsdfs/lommel_seeliger_bsdf.ipp", "include/huira_impl/materials/bsdfs/mcewen_bsdf.ipp"]}
{"id": "C57", "title": "Ray origin offset moves to the side of the normal", "statement": "The self-intersection offset moves each coordinate of the hit point in the direction of the normal's coordinate or leaves it, never to the other side, for every finite point.", "quantifier": "all 32-bit float coordinates and normals", "why_tests_cant": "2^64 combinations per coordinate; bit level integer arithmetic on float representations.", "anchors": ["include/huira_impl/render/interaction.ipp: offset_intersection_ (117-140)"]}
{"id": "C58", "title": "The PSF radius table never cuts off a significant pixel", "statement": "For every flux, all kernel pixels beyond the effective radius returned by the lookup contribute less than the threshold, and the radius never exceeds the kernel radius.", "quantifier": "all kernels, thresholds and fluxes", "why_tests_cant": "All kernels.", "anchors": ["include/huira_impl/render/psf_lut.ipp"]}
{"id": "C59", "title": "Transmittance is multiplicative and bounded", "statement": "Transmittance over consecutive segments is the product of the segment transmittances, lies in [0,1], is 1 at distance 0 and decreases with distance.", "quantifier": "all non-negative extinction coefficients and distances", "why_tests_cant": "Continuum.", "anchors": ["include/huira/volumes/medium.hpp"]}
{"id": "C60", "title": "Asteroid magnitude model obeys its definition", "statement": "An unresolved asteroid observed at 1 AU from both Sun and observer at zero phase has exactly its absolute magnitude.", "quantifier": "all absolute magnitudes and slope parameters", "why_tests_cant": "One wrong unit conversion scales every result; tests with relative comparisons hide it.", "anchors": ["include/huira_impl/assets/unresolved/unresolved_asteroid.ipp (151-201)"]}
{"id": "C61", "title": "Handles reject expired or removed objects", "statement": "Every access through a handle to an object that has been destroyed or removed from the scene throws, and access to a live scene object reaches that object.", "quantifier": "all histories of creation, removal and access", "why_tests_cant": "All histories.", "anchors": ["include/huira_impl/handles/handle.ipp", "include/huira/scene/scene_object.hpp"]}
{"id":"C62","title":"The occlusion test reads only stored depths","statement":"While drawing unresolved objects into a frame buffer with a depth channel, every depth lookup is inside the depth image.","quantifier":"all image sizes and all projected sample positions that pass the renderer's range test","why_tests_cant":"only samples landing exactly on the far edge of the image are looked up out of range","anchors":["include/huira_impl/render/renderer.ipp: render_unresolved_ (831, 884-891)","include/huira_impl/images/image.ipp: operator()(Pixel)"]}
{"id":"C63","title":"Irradiance of a moving source is interpolated between its time samples","statement":"For every list of time samples and every shutter time in [0,1] the irradiance used lies between two of the samples, equals sample k at time k/(N-1), and no sample outside the list is read.","quantifier":"all non-empty sample lists and all times in [0,1]","why_tests_cant":"holds for every number of samples and every time including both ends of the shutter","anchors":["include/huira_impl/render/renderer.ipp: RenderItem::interpolate_irradiances (600-612)"]}
{"id":"C64","title":"A moving light is placed between its time samples","statement":"For every list of light transforms and shutter time in [0,1] the light used for shading is placed between two neighbouring samples and at sample k at time k/(N-1), with its rotation and scale.","quantifier":"all non-empty lists of transforms and all times in [0,1]","why_tests_cant":"quantifies over all numbers of samples and times","anchors":["include/huira_impl/render/renderer.ipp: interpolate_transform (74-103)"]}
{"id":"C65","title":"Pixel statistics are exact and dynamic sampling never stops early","statement":"The running mean and variance of a pixel equal the mean and sum of squared deviations of the accepted samples; NaN samples are ignored; sampling ends before the requested number only when dynamic sampling is on, at least the minimum number of samples was drawn and the relative variance is below the threshold.","quantifier":"all sample sequences, minimum counts and thresholds","why_tests_cant":"the running update must agree with the definition for every sequence","anchors":["include/huira_impl/render/renderer.ipp: path_trace_ (167-527)"]}
{"id":"C66","title":"Sensor output is quantised to the converter's levels","statement":"With noise disabled every value in the sensor response is one of the 2^bits levels of the analogue-to-digital converter.","quantifier":"all signals and all valid sensor configurations","why_tests_cant":"A test checks a few signals; the claim is about every real signal.","anchors":["include/huira_impl/cameras/sensors/simple_sensor.ipp:noise_and_adc"]}
{"id":"C67","title":"Reading the same frame out twice gives the same image","statement":"CameraModel::readout of the same received power with the same configuration gives the same sensor response every time it is called.","quantifier":"every frame, configuration and history of earlier read-outs","why_tests_cant":"The result depends on the process history of a shared generator, which a single test does not vary.","anchors":["include/huira_impl/cameras/sensors/simple_sensor.ipp:SimpleSensor::readout"]}
{"id":"C68","title":"Gain in decibels, f-stop and diopters read back as set","statement":"After set_gain_db, set_fstop or set_diopters with a valid value the matching getter returns that value and the aperture's diameter, radius and area agree.","quantifier":"all valid values, focal lengths and sensor states","why_tests_cant":"The round trip must hold for every real value.","anchors":["include/huira/cameras/sensors/sensor_model.hpp:SensorConfig::set_gain_db","include/huira_impl/cameras/camera_model.ipp:set_fstop,fstop,set_diopters,get_diopters","include/huira_impl/cameras/apertures/circular_aperture.ipp:set_area"]}
{"id":"C69","title":"Depth of field: rays of a pixel start on the aperture and meet at the focus distance","statement":"With depth of field enabled every ray of a pixel starts on the aperture disc and passes, ahead of the camera, through one common point whose depth is the focus distance.","quantifier":"all pixels, intrinsics, focus distances, aperture sizes and random samples","why_tests_cant":"Holds for a continuum of samples, pixels and distances.","anchors":["include/huira_impl/cameras/camera_model.ipp:cast_ray","include/huira_impl/cameras/apertures/circular_aperture.ipp:sample"]}
{"id": "C70", "title": "Adding images is pixel-wise and needs equal sizes", "statement": "operator+ of two images of the same resolution returns an image of that resolution whose pixels are the sums of the corresponding pixels; for different resolutions it throws.", "quantifier": "all pairs of images of any size", "why_tests_cant": "tests add a few images; the claim is for every size and content", "anchors": ["include/huira_impl/images/image.ipp: Image::operator+"]}
{"id": "C71", "title": "Radiance HDR orientation is honoured", "statement": "An HDR image whose resolution line declares another orientation (+Y, -X) decodes to the picture that orientation describes.", "quantifier": "all HDR files and the four axis-aligned orientations the decoder accepts", "why_tests_cant": "quantifies over all files of all sizes", "anchors": ["include/huira_impl/images/io/hdr_io.ipp: read_hdr_raw_"]}
{"id": "C72", "title": "FITS integer scaling", "statement": "An image written by write_image_fits with an integer BITPIX and read back by read_image_fits has every finite pixel of [0,1] within half a count of its value, for every sensor bit depth and every metadata SATURATE value.", "quantifier": "all images, all positions, all pixel values in [0,1], BITPIX 8/16/32, all sensor bit depths and SATURATE values", "why_tests_cant": "The scaling depends on the combination of BITPIX, sensor bit depth and metadata; the pixel value is continuous.", "anchors": ["include/huira_impl/images/io/fits_io.ipp:write_image_fits", "include/huira_impl/images/io/fits_io.ipp:read_image_fits"]}
{"id": "C73", "title": "The last setter called on a node decides where the scene takes its transform from", "statement": "After set_position, set_spice_origin, set_spice, a position callback or a state callback, the scene uses exactly that source for the node's position until the next call that sets the position, whatever is done to the rotation; likewise for rotation.", "quantifier": "every history of node setters and scene calls", "why_tests_cant": "Modes of position and rotation multiply with histories.", "anchors": ["include/huira_impl/scene/node.ipp: Node::set_*, get_ssb_transform_"]}
{"id": "C74", "title": "A scene view holds every instance exactly once", "statement": "A SceneView contains one entry for every way from the scene root to an instance (entering a model at its root node), grouped by primitive, and nothing else.", "quantifier": "every scene graph reachable through the API, including models instanced several times", "why_tests_cant": "All graph shapes and histories.", "anchors": ["include/huira_impl/scene/scene_view.ipp: traverse_and_collect_, traverse_model_graph_, add_primitive_instance_"]}
{"id": "C75", "title": "get_parent returns the parent", "statement": "For every node of the scene but the root get_parent returns the frame that has it as child; for the root it throws.", "quantifier": "every reachable scene graph and node", "why_tests_cant": "All graph shapes.", "anchors": ["include/huira_impl/scene/node.ipp: Node::get_parent", "include/huira_impl/scene/scene.ipp: find_node_shared_ptr_, find_node_in_tree_"]}
{"id": "C76", "title": "get_material_by_id finds a material exactly when the model has it", "statement": "Model::get_material_by_id returns a material with that id used by some mesh instance of the model, and throws only when there is none.", "quantifier": "every loaded model and every id", "why_tests_cant": "All model graphs.", "anchors": ["include/huira_impl/assets/model.ipp: Model::get_material_by_id"]}
{"id": "C77", "title": "Velocities compose as time derivatives", "statement": "If two transforms carry, at some time, the velocity and angular velocity with which their position and rotation actually move, then so does their product; and velocity_of_local_point is the derivative of the world position of a point fixed in the frame.", "quantifier": "all differentiable motions of two frames with constant scale, all times and points", "why_tests_cant": "Derivatives of a continuum of motions.", "anchors": ["include/huira_impl/core/transform.ipp: operator*, velocity_of_point, velocity_of_local_point"]}
{"id": "C78", "title": "The inverse of a moving transform carries its true velocity", "statement": "If a transform carries the velocity and angular velocity with which it moves, then its inverse() carries the velocity and angular velocity of the inverse motion.", "quantifier": "all differentiable motions with constant uniform scale", "why_tests_cant": "A frame that turns and is off the origin is needed to see the missing term; a static or non-rotating test cannot.", "anchors": ["include/huira_impl/core/transform.ipp: inverse"]}
{"id": "C79", "title": "Named units have their defined sizes", "statement": "One unit of every named unit type measures, in SI, the size that the unit is defined to have; units derived from each other (yard and mile, mile and miles per hour) are consistent.", "quantifier": "every named unit of units.hpp", "why_tests_cant": "Each ratio is a separate constant; a test samples a few and uses tolerances.", "anchors": ["include/huira/units/units.hpp: unit aliases (46-209)", "include/huira/units/quantity.hpp: unit tags (352-435)"]}
{"id": "C80", "title": "Julian dates round trip in every time scale", "statement": "Converting a Julian or modified Julian date in any time scale to a Time and back returns the date, and converting a Time to a date and back returns the Time; the modified date is the date minus 2400000.5, and the elapsed Julian years are (JD - 2451545)/365.25 in the same scale.", "quantifier": "all dates, all times, all four time scales, every pair of mutually inverse SPICE conversions", "why_tests_cant": "All dates; the UTC branch adds a time-dependent offset.", "anchors": ["include/huira_impl/core/time.ipp: from_julian_date, to_julian_date, from_modified_julian_date, to_modified_julian_date, julian_years_since_j2000"]}
{"id": "C81", "title": "Measured spectra are averaged into bins", "statement": "integrate_over_data(wavelengths, values) throws exactly for lists of different or zero length or wavelengths that are not strictly ascending; otherwise every bin receives the mean over the bin of the piecewise linear curve through the samples (zero outside the sampled range).", "quantifier": "all layouts, all sample lists", "why_tests_cant": "the averages are integrals over arbitrary sample grids; every relative position of bin edges and samples is a separate case", "anchors": ["include/huira_impl/core/spectral_bins.ipp:82-207 integrate_over_data"]}
{"id": "C82", "title": "RGB colours convert to spectra consistently", "statement": "Converting an RGB colour to a spectral layout gives every bin the mean of the RGB step function over the bin when the layout overlaps the visible range, grey stays grey, and only layouts without overlap fall back to the grey average.", "quantifier": "all layouts, all colours", "why_tests_cant": "depends on the position of the layout relative to the RGB bands", "anchors": ["include/huira_impl/core/spectral_bins.ipp:793-827 convert_rgb_to_spectral"]}
{"id": "C83", "title": "Photometry helpers follow their laws", "statement": "linspace hits both end points with equal steps; the trapezoid rule is exact for straight lines; Planck radiance is positive and grows with temperature; black_body is positive for at least two samples per bin; five magnitudes are a factor of 100.", "quantifier": "all grids, temperatures, wavelengths, magnitudes", "why_tests_cant": "laws over the real line", "anchors": ["include/huira_impl/core/physics.ipp:23-156,221-230"]}
{"id": "C84", "title": "A Lambertian sphere reflects its albedo's share of light", "statement": "The irradiance of an unresolved Lambertian sphere follows the Lambert phase law and the inverse square law, and over all directions it reflects exactly its albedo times the light it receives.", "quantifier": "all radii, albedos, distances and phase angles", "why_tests_cant": "the energy balance is an integral over all directions; a constant factor passes every relative test", "anchors": ["include/huira_impl/assets/unresolved/unresolved_sphere.ipp:28-31,124-163"]}
{"id": "C85", "title": "Direction samplers report the density they sample", "statement": "Each hemisphere sampler returns a unit direction whose azimuth and height are functions of the two random numbers, and the density it reports with the direction is the density per solid angle with which it draws directions.", "quantifier": "all pairs of uniform random numbers and all exponents and roughness values", "why_tests_cant": "a wrong density biases every image but each single sample looks right; the claim is an integral over all directions", "anchors": ["include/huira/materials/sampling_utils.hpp:uniform_hemisphere,cosine_hemisphere,power_cosine_hemisphere,sine_hemisphere,ggx_sample_half_vector"]}
{"id": "C86", "title": "Magnitudes become irradiance with a solar spectrum", "statement": "visual_magnitude_to_irradiance gives positive bins that follow the solar spectrum times the albedo, five magnitudes are a factor of 100, and the photon count is that of the magnitude.", "quantifier": "all layouts of positive wavelengths, magnitudes and albedos", "why_tests_cant": "all layouts; a wrong shape keeps totals right", "anchors": ["include/huira_impl/core/physics.ipp:142-213", "include/huira_impl/core/spectral_bins.ipp:550-559"]}
{"id": "C87", "title": "Light is counted exactly once by light sampling and BSDF sampling together", "statement": "At every surface or volume interaction of a path, the expected contribution of a light (light samples plus scattered rays that hit the light) is throughput times scattering function times cosine times the light's radiance, neither less nor more.", "quantifier": "every throughput, radiance, BSDF value and pair of sampling densities, in every channel", "why_tests_cant": "a statement about densities over all directions; a rendered test image only shows a noisy average", "anchors": ["include/huira_impl/render/renderer.ipp:power_heuristic", "include/huira_impl/render/renderer.ipp:path_trace_"]}
{"id": "C88", "title": "Volume free path sampling is unbiased", "statement": "In a homogeneous medium the mean of the surviving weight is Beer's transmittance and the mean of the collision weights is the scattering integral, in every channel, for any mixture of absorption and scattering; isotropic scattering is uniform on the sphere.", "quantifier": "every medium, distance, integrand and channel", "why_tests_cant": "an expectation over a continuum of random numbers", "anchors": ["include/huira/volumes/medium.hpp:sample_free_path", "include/huira_impl/render/renderer.ipp:path_trace_", "include/huira/volumes/scattering/isotropic_scatter.hpp:IsotropicPhaseFunction"]}
{"id": "C89", "title": "A surface never reflects more light than it receives", "statement": "The total over all outgoing directions of the BSDF value times the cosine is at most the albedo (so at most 1).", "quantifier": "all incoming directions and material parameters", "why_tests_cant": "the claim is an integral over all directions", "anchors": ["include/huira_impl/materials/bsdfs/lambertian_bsdf.ipp", "include/huira_impl/materials/bsdfs/lommel_seeliger_bsdf.ipp", "include/huira_impl/materials/bsdfs/cook_torrance_bsdf.ipp"]}
{"id": "C90", "title": "PSF kernels are non-negative and carry unit energy", "statement": "Every cached sub-pixel kernel of a PSF is defined (no read outside the value table), non-negative, and sums to one in each channel, or is entirely zero when the PSF has practically no energy in the kernel window.", "quantifier": "all PSF functions, radii, bank counts and banks", "why_tests_cant": "all PSF functions; the sum is over a table resampled from another table", "anchors": ["include/huira_impl/cameras/psfs/psf.ipp:generate_polyphase_data_,normalize_kernel_"]}
{"id": "C91", "title": "Sub-pixel PSF kernels match the source position", "statement": "For every sub-pixel position the selected kernel exists, belongs to the bank interval containing the position, and is centred on the lower edge of that interval.", "quantifier": "all positions and bank counts", "why_tests_cant": "continuum of positions; index arithmetic with truncation and clamping", "anchors": ["include/huira_impl/cameras/psfs/psf.ipp:get_kernel"]}
{"id": "C92", "title": "Point sources and resolved objects in the same direction light the same pixel", "statement": "A point source and a resolved object that project to the same image position contribute to the same pixel.", "quantifier": "all image positions", "why_tests_cant": "each renderer is self-consistent; only comparing the conventions at all sub-pixel positions shows the offset", "anchors": ["include/huira_impl/render/renderer.ipp:175-180,900-970"]}
{"id": "C93", "title": "Shadow rays carry the product of the transmittances on their way", "statement": "The transmittance of a shadow ray equals exp(-optical depth through the innermost media) times the transmission colours of the surfaces crossed before the light; it is within [0,1], and 0 behind an opaque surface.", "quantifier": "every nesting of media, every sequence of crossings, every channel", "why_tests_cant": "unbounded sequences of crossings and stack histories", "anchors": ["include/huira_impl/scene/scene_view.ipp:evaluate_transmittance", "include/huira/volumes/medium_stack.hpp:MediumStack"]}
{"id": "C94", "title": "Russian roulette leaves the mean unchanged", "statement": "Averaged over the random number, the throughput after Russian roulette is the throughput before, in every channel; survival has probability min(0.95, largest channel).", "quantifier": "every throughput spectrum with a positive channel", "why_tests_cant": "an expectation over a continuum of random numbers", "anchors": ["include/huira_impl/render/renderer.ipp:path_trace_"]}
{"id": "C95", "title": "The indirect clamp limits indirect light only and keeps its colour", "statement": "With a threshold set, the indirect part of each sample is scaled by one factor so that no channel exceeds the threshold; samples within it and all direct light are untouched; by default nothing is clamped.", "quantifier": "every threshold and every pair of direct and indirect spectra", "why_tests_cant": "all spectra", "anchors": ["include/huira/render/renderer.hpp:set_indirect_clamp", "include/huira_impl/render/renderer.ipp:path_trace_"]}
{"id": "C96", "title": "Path radiance is never negative, paths end, and primary light is exact", "statement": "No sequence of surfaces, lights, media and random numbers yields a negative channel; a path uses at most max_bounces segments besides those slipping through transparent surfaces; a camera ray that meets a light or the background shows exactly its radiance.", "quantifier": "every sequence of ray segments of any length", "why_tests_cant": "unbounded sequences of interactions", "anchors": ["include/huira/render/renderer.hpp:set_max_bounces", "include/huira_impl/render/renderer.ipp:path_trace_"]}
{"id": "C97", "title": "Ellipsoids are hit where and when the ray meets them", "statement": "For every ellipsoid with positive radii and every ray, the intersection query reports a hit exactly when the ray meets the ellipsoid within the asked range, and then the nearest such point; the bounding box given to the ray tracer contains the ellipsoid and is the smallest.", "quantifier": "all radii, ray origins, directions, optional range ends", "why_tests_cant": "the ray/ellipsoid configuration space is continuous; grazing and inside cases are measure-zero for a test", "anchors": ["include/huira_impl/geometry/ellipsoid.ipp:Ellipsoid::intersect_callback", "include/huira_impl/geometry/ellipsoid.ipp:Ellipsoid::bounds_callback"]}
{"id": "C98", "title": "Surface data of an ellipsoid hit describe the hit point", "statement": "For every hit on an ellipsoid the texture coordinates are in [0,1] and the position recomputed from them is the hit point, the normals are the unit outward normal, and the tangent frame is orthonormal.", "quantifier": "all radii, rays and hits", "why_tests_cant": "a continuum of surface points and shapes, including tiny bodies", "anchors": ["include/huira_impl/geometry/ellipsoid.ipp:Ellipsoid::compute_surface_interaction"]}
{"id": "C99", "title": "A resolved hit lies on the ray", "statement": "The world position returned for a hit is the point where the ray met the instance, also when the instance moves during the exposure.", "quantifier": "all instance poses, motions, rays, hit parameters", "why_tests_cant": "all poses and motions, not the few a test sets up", "anchors": ["include/huira_impl/scene/scene_view.ipp:SceneView::resolve_hit"]}
{"id": "C100", "title": "Returned normals face the viewer and are perpendicular to the surface", "statement": "For every hit the returned geometric and shading normals are unit vectors, the geometric one faces the viewer and the shading one lies on its side; the geometric normal is perpendicular to the instance's surface for every rotation and scale.", "quantifier": "all rotations, scales, directions, local normals", "why_tests_cant": "must hold for every pose, including non-uniform scales", "anchors": ["include/huira_impl/scene/scene_view.ipp:SceneView::resolve_hit"]}
{"id": "C101", "title": "Materials shade in an orthonormal frame", "statement": "At every hit the material evaluates its BSDF in a right-handed orthonormal frame around the shading normal, with or without a normal map, with or without tangents in the mesh.", "quantifier": "all hits, meshes, tangents, normal map values", "why_tests_cant": "all interpolated tangents and map values", "anchors": ["include/huira_impl/materials/material.ipp:Material::evaluate", "include/huira/render/interaction.hpp:build_default_tangent_frame"]}
{"id": "C102", "title": "Mesh hits stay inside the buffers and inside the triangle", "statement": "A mesh is constructed exactly when every index names a vertex and the tangent buffer is empty or as long as the vertex buffer; then resolving any hit on any of its triangles reads only existing entries and returns a point of that triangle, the vertex data being exact at the corners.", "quantifier": "all index, vertex and tangent buffers, primitives, barycentric coordinates", "why_tests_cant": "memory safety for all buffers", "anchors": ["include/huira_impl/geometry/mesh.ipp:Mesh::Mesh", "include/huira_impl/geometry/mesh.ipp:Mesh::compute_surface_interaction"]}
{"id": "C103", "title": "Nodes of loaded models are placed by their matrices", "statement": "A model file's node matrix is either reproduced exactly by the node's transform or the load fails.", "quantifier": "all 4x4 node matrices", "why_tests_cant": "all matrices, including mirrored and sheared ones", "anchors": ["include/huira_impl/assets/io/model_loader.ipp:ModelLoader::convert_transform_"]}
{"id": "C104", "title": "sRGB conversion is order-preserving and invertible", "statement": "Decoding sRGB and encoding again gives back every value, and both directions preserve order; in particular every 8- and 16-bit code survives the round trip.", "quantifier": "all channel values and images", "why_tests_cant": "a real interval; the exceptions are 1e-8 wide", "anchors": ["include/huira/images/io/color_space.hpp:srgb_to_linear", "include/huira/images/io/color_space.hpp:linear_to_srgb"]}
{"id": "C105", "title": "Aperture samples are uniform over the aperture", "statement": "With uniform sampler pairs, the lens position of a depth-of-field ray is uniform over the aperture disc: the unit square is mapped one-to-one onto the disc and areas are multiplied by the constant aperture area.", "quantifier": "all apertures, sampler pairs and disc points", "why_tests_cant": "a probability density over a continuum", "anchors": ["include/huira_impl/cameras/apertures/circular_aperture.ipp:CircularAperture::sample"]}
{"id": "C106", "title": "Node setters obey the SPICE rules, and refuse atomically", "statement": "set_position/set_rotation/set_manual_transform are refused exactly when a child takes its position/rotation from SPICE; set_velocity and set_angular_velocity exactly when the node's position/rotation is not set by hand; set_spice_origin/set_spice_frame/set_spice exactly when the parent's is not from SPICE. A refused setter leaves the whole scene unchanged, an accepted one changes no other node and no parent, child or asset link.", "quantifier": "every history of scene operations, every node of the graph, every setter and argument", "why_tests_cant": "the rules depend on the modes of the node's parent and children, i.e. on the whole history; tests try a few trees", "anchors": ["include/huira_impl/scene/node.ipp:set_position,set_velocity,set_spice", "include/huira_impl/scene/frame_node.ipp:position_must_be_spice_"]}
{"id": "C107", "title": "The McEwen law blends Lommel-Seeliger and Lambert by phase angle", "statement": "For every visible pair of directions the McEwen BSDF is a blend of the Lommel-Seeliger and the Lambert BSDF of the same albedo whose Lommel-Seeliger share depends on the phase angle alone, is 1 at opposition and falls by a factor e every 60 degrees; so its value always lies between the two.", "quantifier": "all unit directions above the surface, all albedos", "why_tests_cant": "a continuum of directions and parameters", "anchors": ["include/huira_impl/materials/bsdfs/mcewen_bsdf.ipp:eval"]}
{"id": "C108", "title": "Cook-Torrance reported density is the density it samples with", "statement": "For a Cook-Torrance material, the probability density that pdf(wo, wi) reports for a direction produced by sample(wo, u1, u2) equals the true density, per unit solid angle, with which uniform random numbers are turned into that direction: the sum over both lobes (GGX visible-normal reflection and cosine diffuse) of one over the solid angle each spreads a unit of random-number area over. Each direction above the surface comes from each lobe exactly once.", "quantifier": "every view direction above the surface (not grazing, not in the narrow tangent fallback cone unless on axis), every orthonormal frame, roughness, metallic and pair of random numbers", "why_tests_cant": "An incorrect density gives a biased image that still looks plausible; a test compares a histogram at a few view directions with a tolerance, while unbiasedness needs the identity for every view, roughness and random pair.", "anchors": ["include/huira_impl/materials/bsdfs/cook_torrance_bsdf.ipp:sample,pdf", "include/huira/materials/sampling_utils.hpp:ggx_vndf_sample,cosine_sample_hemisphere"]}
{"id": "C109", "title": "Light-time corrected state", "statement": "In the GEOMETRIC_STATE observation mode an object is shown in the true state it had when the light now reaching the observer left it: the delay used differs from the unique solution of the light-time equation by at most the tolerance 1e-12 s over (1 - v/c), or by the relative amount (v/c)^10 left after ten rounds; an object at rest is shown where it is.", "quantifier": "every scene-graph chain whose true state exists at all times, every observer, time and bound v < c on the object's speed", "why_tests_cant": "Convergence of a fixed-point iteration to the unique solution is a statement about all trajectories and geometries; a test compares one trajectory with a tolerance.", "anchors": ["include/huira_impl/scene/node.ipp:get_geometric_state_,get_apparent_transform"]}
{"id": "C110", "title": "Manually placed nodes move as their velocities say", "statement": "A node with a manually set position, velocity, orientation and angular velocity has at time t the position and orientation that follow from them (linear motion, rotation at constant rate about the given axis, inertial or body), composed with its parent; the velocity and angular velocity reported with the state are the time derivatives of the reported position and orientation, through any number of parents.", "quantifier": "every chain of manual nodes under a node whose state moves consistently, every epoch, time, velocity and angular velocity", "why_tests_cant": "The state must be differentiable with the reported derivative at every time and depth; a test samples few.", "anchors": ["include/huira_impl/scene/node.ipp:get_local_position_at_,get_local_rotation_at_,get_ssb_transform_,set_body_angular_velocity"]}
{"id": "C111", "title": "SPICE-driven nodes report the ephemeris state wherever they hang", "statement": "A node driven by SPICE is at the ephemeris position, with the ephemeris velocity and orientation, whatever node it hangs from.", "quantifier": "every chain, parent state (uniformly scaled), ephemeris and time", "why_tests_cant": "The parent's motion has to cancel for every parent; a test with a resting parent cannot see it.", "anchors": ["include/huira_impl/scene/node.ipp:get_ssb_transform_,get_local_position_at_", "include/huira_impl/core/spice.ipp:spkezr,sxform"]}
{"id": "C112", "title": "Angular velocity of a SPICE frame", "statement": "sxform returns, with the rotation from one frame to another, the angular velocity of the frame, that is the vector w with d(rotation)/dt = w x rotation.", "quantifier": "every differentiable rotation between frames and every time", "why_tests_cant": "A test on a frame whose axis is fixed by the rotation (a pole-aligned body frame) cannot see which frame the vector is in.", "anchors": ["include/huira_impl/core/spice.ipp:sxform"]}
{"id": "C113", "title": "Nadir-pointing callbacks", "statement": "ZUp/ZDown nadir callbacks return the proper rotation whose z axis points away from (towards) the centre and whose y axis points forward in the plane of position and velocity, and this rotation is unique; the angular velocity returned with it is that of the turning frame.", "quantifier": "every position and velocity not parallel to each other, and (failure) every parallel pair", "why_tests_cant": "Orthonormality, handedness and forward direction for all orbits; tests use circular equatorial ones.", "anchors": ["include/huira/scene/state_callbacks/nadir_point.hpp:ZUpYForwardCallback,ZDownYForwardCallback"]}
{"id": "C114", "title": "Stars and objects in one direction are drawn in one direction", "statement": "A star and an object that lie in the same geometric direction from the camera are drawn in the same direction, at the object's distance, in every observation mode.", "quantifier": "every camera state, object chain, direction, distance and observation mode", "why_tests_cant": "The two code paths must agree for all velocities and modes; image tests never put a star behind an object with a moving camera.", "anchors": ["include/huira_impl/scene/scene_view.ipp:SceneView", "include/huira_impl/scene/node.ipp:get_apparent_transform"]}
{"id": "C115", "title": "Proper motion of stars", "statement": "A catalogue star's direction is a unit vector at all times, equals the catalogue direction at the catalogue epoch, and leaves it with the catalogue proper motion (pm_ra in mas/yr along the parallel, pm_dec along the meridian).", "quantifier": "every right ascension, declination away from the poles, and proper motion", "why_tests_cant": "Needs the derivative at the epoch and unit length for all times.", "anchors": ["include/huira_impl/stars/star.ipp:compute_direction_"]}
{"id": "C116", "title": "The Hapke BSDF is Hapke's photometric model", "statement": "For light and camera directions above the surface the Hapke material returns Hapke's reflectance: w/(4 pi (mu0+mu)) (P(alpha)(1+B(alpha)) + H(mu0)H(mu) - 1), where the particle phase function is normalised over the sphere and scatters a fraction c into the backward lobe, and the opposition surge has amplitude B0 at zero phase and half of it at tan(alpha/2) = h.", "quantifier": "every pair of directions above the surface and all parameters with h > 0 and -1 < b < 1", "why_tests_cant": "The formula and the normalisation integral range over all directions and parameters; a swapped lobe renders plausible images.", "anchors": ["include/huira_impl/materials/bsdfs/hapke_bsdf.ipp: HapkeBSDF::eval", "include/huira_impl/materials/bsdfs/hapke_bsdf.ipp: phase_function_dhg_, opposition_effect_, h_function_"]}
{"id": "C117", "title": "The camera's focal length, pixel pitch and focal length in pixels agree", "statement": "After any sequence of accepted configuration calls the focal length in pixels is the focal length over the pixel pitch in both axes, and changing the focal length after setting intrinsics scales both focal lengths in pixels and keeps the principal point.", "quantifier": "every sequence of accepted configuration calls", "why_tests_cant": "Histories of calls cannot be enumerated.", "anchors": ["include/huira_impl/cameras/camera_model.ipp: set_intrinsics, set_sensor, set_focal_length, compute_intrinsics_"]}
{"id": "C118", "title": "The solid angle of a pixel is the solid angle of its square", "statement": "For an undistorted camera every entry of the pixel solid angle map is the integral of cosine over squared distance over the pixel's square on the image plane; it is positive, and the map sums to the solid angle of the whole image, less than a hemisphere.", "quantifier": "all intrinsics with positive focal lengths, all pixels and resolutions, both axis conventions", "why_tests_cant": "The claim equates an angle-excess formula with an integral for all reals.", "anchors": ["include/huira_impl/cameras/camera_model.ipp: compute_pixel_solid_angles_, triangle_solid_angle_, tangent_"]}
{"id": "C119", "title": "A sensor configuration reads back as given", "statement": "After an accepted configure_sensor_from_pitch, configure_sensor_from_size or set_intrinsics the camera reports the resolution, pixel pitch or sensor size, intrinsics and principal point it was given; a missing vertical pitch or height gives square pixels and a missing principal point the image centre.", "quantifier": "all arguments accepted and all previous camera states", "why_tests_cant": "Ranges over all arguments and all histories before the call.", "anchors": ["include/huira_impl/cameras/camera_model.ipp: configure_sensor_from_pitch, configure_sensor_from_size, set_intrinsics"]}
{"id": "C120", "title": "A material shades with what its last edits say", "statement": "After any sequence of set_*, set_*_factor, reset_* and set_bsdf calls each shading parameter is the last image times the last factor given since the last reset (1 or 0 by default), whatever the order of the calls; the parameters a BSDF does not declare do not influence it; and a material that does not report alpha is opaque everywhere.", "quantifier": "every sequence of edits, every BSDF, every texture coordinate", "why_tests_cant": "Histories of edits cannot be enumerated.", "anchors": ["include/huira_impl/materials/material.ipp: Material::evaluate, set_*, reset_*", "include/huira/materials/material.hpp: has_alpha, has_alpha_texture", "include/huira_impl/materials/bsdfs/*.ipp: requirements"]}
{"id": "C121", "title": "Auxiliary channels show what the camera sees", "statement": "For every pixel the depth channel is the distance from the camera to the nearest thing its camera rays show, the id is that of the first surface shown, the albedo is the mean over the samples and the normal is the direction of the summed camera normals.", "quantifier": "every number of samples and bounces, and every sequence of transparent surfaces, shaded surfaces, volume events and lights met by each camera path", "why_tests_cant": "The event sequences are unbounded; a test scene without transparency, several bounces, directly visible lights or NaN samples shows nothing wrong.", "anchors": ["include/huira_impl/render/renderer.ipp: Renderer::path_trace_"]}
{"id": "C122", "title": "The background image surrounds the scene as a panorama", "statement": "A ray that leaves the scene sees the background image at the longitude and latitude of its direction, bilinearly interpolated; a uniform background is seen equally in all directions; no direction reads outside the image; nearby directions see nearby values.", "quantifier": "every background image and every direction of a ray", "why_tests_cant": "Directions form a continuum; the wrong poles and the seam are sets a test does not sample.", "anchors": ["include/huira_impl/render/renderer.ipp: Renderer::path_trace_", "include/huira_impl/images/image.ipp: Image::sample_bilinear", "include/huira_impl/scene/scene.ipp: Scene::set_background_radiance"]}
{"id": "C123", "title": "TIFF images read as they are stored", "statement": "For every TIFF layout (tiles or strips, interleaved or planar, any tile size) pixel (x, y) of channel ch is the stored sample; no memory outside the buffers is read, whatever calls libtiff makes; a failed read is reported; colours and alpha are those the file declares; an 8 or 16 bit image that is read and written again at its depth is unchanged.", "quantifier": "every image size, tile size, number of samples and sample size, every sequence of read and seek calls, every sample value", "why_tests_cant": "Tile sizes, sample counts and call sequences are unbounded; the failing reads and the odd extra samples need files a test does not have.", "anchors": ["include/huira_impl/images/io/tiff_io.ipp: read_tiff_raw_, tiff_mem_read_, tiff_mem_seek_, read_image_tiff_rgb, write_image_tiff"]}
{"id": "C124", "title": "Every slot of a loaded material shows its own file", "statement": "After a model is loaded, each texture slot of each material (base colour, transparency, roughness, metalness, normals, emission) shows its own file read for that role: colours as light according to the file's colour space, roughness and metalness as the green and blue channels, normals as unit vectors; a file that cannot be read leaves its slot empty and no other; a file is kept once however many materials use it.", "quantifier": "every list of materials, every assignment of paths to slots, every content of the files (on disk, embedded compressed, embedded raw, missing, unreadable)", "why_tests_cant": "The caches couple materials: what a slot shows can depend on every texture loaded before it, an unbounded history.", "anchors": ["include/huira_impl/assets/io/model_loader.ipp: ModelLoader::process_materials_, load_material_texture_, convert_embedded_raw_", "include/huira_impl/scene/scene.ipp: Scene::add_normal_texture"]}
{"id": "C125", "title": "PNG images read and write as they are", "statement": "Pixel (x, y) of a PNG is the stored sample as a fraction of full scale, alpha included; a PNG written and read back is unchanged up to half a step of its depth, and exactly if its values are levels of that depth; its colour space survives; a damaged PNG is reported as an error; no byte outside the buffer is read, whatever libpng asks for.", "quantifier": "every size, depth, gray or colour, with or without alpha, every sample value, every sequence of read requests, every gamma", "why_tests_cant": "Read requests form unbounded sequences, and sizes, values and gammas are too many to try; an error path that jumps over destructors looks fine in a test.", "anchors": ["include/huira_impl/images/io/png_io.ipp: png_mem_read_callback_, read_png_raw_, detect_png_color_space_, read_color_space, read_image_png, read_image_png_mono, write_image_png"]}
{"id": "C126", "title": "JPEG images read as decoded and write completely", "statement": "Each pixel of a JPEG read as colour is the decoded sample as a fraction of full scale, and read as gray the mean of its colours, in linear light as documented; writing returns only if the file holds the whole compressed picture, whose samples are the image's levels in row order; bad arguments are errors that touch nothing; every decompressor, buffer and file is given back on every path; read back after writing, a colour differs by at most half a level more than the codec's own error.", "quantifier": "every size, every sample value, every answer of TurboJPEG and of the file system (including every failure), every quality", "why_tests_cant": "Failures of the library and the disk cannot be provoked systematically in tests, and sizes near 2^31 bytes are too large to try.", "anchors": ["include/huira_impl/images/io/jpeg_io.ipp: read_jpeg_raw_, read_image_jpeg, read_image_jpeg_mono, write_image_jpeg"]}
{"id": "C127", "title": "The diffraction PSF is the Airy pattern of the camera's aperture", "statement": "For a circular aperture of any diameter and focal length, every pixel pitch, wavelength (at least 1 nm) and pixel offset, the PSF value evaluate(x, y) is (2 J1(a)/a)^2 with a = pi * aperture * r / (wavelength * focal length), r the physical distance on the sensor and J1 the Bessel function defined by its power series, within 5e-9 for every argument however large (1 in the middle); the underlying Bessel evaluation is within 4e-8 of J1 on the whole positive axis, across both of its rational approximations; the values are never negative nor above 1 (to 3e-9), depend only on the physical distance, fall off as the cube of the distance, and the first dark ring lies at 1.22 wavelengths times the f-number and not before.", "quantifier": "all apertures, focal lengths, pitches, wavelengths and pixel offsets (real arithmetic)", "why_tests_cant": "the approximation is two fitted rational/trigonometric formulas joined at 8; its error over the whole half line, including unbounded arguments, is a statement about a transcendental function that sampling cannot settle", "anchors": ["include/huira_impl/cameras/psfs/airy_disk.ipp: AiryDisk::AiryDisk, AiryDisk::evaluate, AiryDisk::bessel_j1"]}
{"id": "C128", "title": "fetch-tycho2 never loses stars and its exit status can be trusted", "statement": "If 'huira fetch-tycho2' (with or without --process, --force, --clean) or 'huira process-tycho2' ends with status 0 then every star file, or the complete catalogue of all stars of all files, is in the output directory; whenever the machine stops during a run, either all star files are still there or the catalogue is complete; after any interrupted or failed run, running again repairs the directory; a missing star file ends the run with status 1 and touches nothing.", "quantifier": "all network behaviours, all disk behaviours, every point at which the machine may stop, all earlier contents of the directory", "why_tests_cant": "needs every interleaving of crash points, short writes, failed transfers and earlier runs", "anchors": ["apps/huira_cli/commands/fetch_tycho2.cpp: download_file, fetch_tycho2", "apps/huira_cli/commands/process_tycho2.cpp: process_tycho2", "include/huira_impl/stars/io/star_catalog.ipp: write_star_data"]}
{"id": "C129", "title": "The command line tool runs exactly the command that was asked for", "statement": "For every argument vector, leading -v/--verbose flags set verbose, the first other argument decides: --version, -h/--help, a registered command (run with exactly the arguments from its own name on), or an unknown command error; no command at all prints the help with status 1; argv is never read outside its bounds, even when it is empty; registering a command twice keeps the first.", "quantifier": "all argument vectors and all registered command sets", "why_tests_cant": "argument vectors are unbounded", "anchors": ["apps/huira_cli/cli.cpp: Registry::add, dispatch"]}
{"id": "C130", "title": "NumPy arrays and Huira objects exchange the same elements", "statement": "For every NumPy array of the right shape, whatever its strides, direction, offset and element type, Vec3(a), Quaternion(a), ShusterQuaternion(a), Rotation's axes and Rotation.apply take component k from a[k], Mat3(a) and Rotation.from_..._matrix(a) take row r, column c from a[r, c], and Image(a) takes channel c of pixel (x, y) from a[y, x, c]; to_numpy() and np.asarray(img) show the same elements at the same indices, inside the image's memory and without aliasing; Image(img.to_numpy()) is img; arrays of another shape raise an exception; nothing outside the array is read.", "quantifier": "all arrays NumPy can build: any shape, any strides (negative, zero, transposed), any type", "why_tests_cant": "the space of strided views is unbounded and the failure depends on memory that happens to lie behind the view", "anchors": ["bindings/python/include/huira/core/types_py.ipp: bind_types", "bindings/python/include/huira/core/rotation_py.ipp: bind_rotation", "bindings/python/include/huira/images/image_py.ipp: bind_image", "include/huira_impl/images/image.ipp: Image::Image"]}
{"id": "C131", "title": "NumPy views of frame buffer channels stay valid", "statement": "A NumPy view obtained with np.asarray(fb.depth), np.asarray(bundle.image) and the like keeps showing live memory of the image whatever is done to the frame buffer or bundle afterwards (enable_..., clear, fill, assignment of an image).", "quantifier": "all histories of operations on the channel or bundle after the view was taken", "why_tests_cant": "a dangling view usually still shows plausible values", "anchors": ["bindings/python/include/huira/render/frame_buffer_py.ipp: bind_frame_buffer", "bindings/python/include/huira/images/image_py.ipp: def_buffer, bind_image_bundle", "include/huira/render/frame_buffer.hpp: enable_"]}
{"id": "C132", "title": "Reading an image by name decodes exactly that file", "statement": "read_image(path) and read_image_mono(path) choose the decoder by the extension of the file name (the part after the last dot), give it exactly the bytes of the file, close the file on every path, and raise an exception for an unreadable, empty or shrunken file, an unsupported format or an unknown extension; the extension is recognised in any mixture of cases.", "quantifier": "all paths, all file contents, all answers of the C library", "why_tests_cant": "names and library answers are unbounded", "anchors": ["include/huira_impl/images/io/read_image.ipp: detect_image_format, read_image, read_image_mono", "include/huira/images/io/io_util.hpp: read_file_to_buffer"]}
{"id": "C133", "title": "Output files and directories are made ready", "statement": "write_image_png/jpeg/tiff/fits(path) can write to any path whose parents can be created, fetch-tycho2 creates the output directory it is given, whatever its name; nothing that exists is changed and only directories on the way to the path are added.", "quantifier": "all paths and all directory trees", "why_tests_cant": "paths and trees are unbounded", "anchors": ["include/huira_impl/util/paths.ipp: make_path", "include/huira_impl/images/io/png_io.ipp: write_image_png", "apps/huira_cli/commands/fetch_tycho2.cpp: fetch_tycho2"]}
{"id": "C134", "title": "A SPICE call returns its own answer or throws its own error", "statement": "In one thread, after any sequence of wrapper calls (furnsh, furnsh_relative_to_file, str2et, deltet, unitim, timout, spkezr, pxform, sxform, conics), caught exceptions and CSPICE calls of the user's own, a wrapper call returns exactly what its SPICE function computes from the kernels loaded so far or throws exactly that function's error message; earlier errors never leak into it, the process is never aborted and the working directory is what it was. timout returns the formatted text cut to lenout - 1 characters.", "quantifier": "every environment (files, kernels, what SPICE computes), every history of calls and every call", "why_tests_cant": "the error state of CSPICE is global and sticky and its error action is set lazily per template instantiation, so correctness depends on the whole history of calls", "anchors": ["include/huira_impl/core/spice.ipp:check_spice_error", "include/huira_impl/core/spice.ipp:call_spice", "include/huira_impl/core/spice.ipp:furnsh_relative_to_file", "include/huira_impl/core/spice.ipp:timout"]}
{"id": "C135", "title": "Leap seconds are provided once and the user's are respected", "statement": "A time conversion loads the default leap second kernel only when the loaded kernels cannot convert times; a user's leap second kernel is never overridden, the default is loaded at most once, and when it cannot be loaded the call throws, nothing changes and the next time conversion tries again.", "quantifier": "every history of calls before the time conversion and every history after it", "why_tests_cant": "what is loaded depends on the order of furnsh calls, time conversions and failures over the whole run", "anchors": ["include/huira_impl/core/spice.ipp:ensure_lsk_loaded", "include/huira/core/spice.hpp:lsk_loaded"]}
{"id": "C136", "title": "SPICE functions can be called from several threads", "statement": "The header says the SPICE functions are thread-safe: concurrent calls would each return their own answer or throw their own error under every schedule.", "quantifier": "every schedule of every number of concurrent calls", "why_tests_cant": "the violating schedules need a thread switch between two adjacent CSPICE calls; a test does not produce them", "anchors": ["include/huira/core/spice.hpp", "include/huira_impl/core/spice.ipp:call_spice", "include/huira_impl/core/spice.ipp:check_spice_error"]}
{"id": "C137", "title": "Defocus blur kernels are the image of the aperture", "statement": "After the focus distance is set, every point source position selects an existing kernel with non-negative entries that sum to one, is flat inside and zero outside the blur spot, and covers exactly the positions from which a ray through the aperture reaches the source; spots smaller than half a pixel are not blurred.", "quantifier": "all focus distances, focal lengths, aperture sizes, pixel pitches, bank counts and sub-pixel positions", "why_tests_cant": "a continuum of spot radii and positions; normalisation needs a lower bound on the sum for every one, and agreement with depth-of-field rays is a geometric equivalence", "anchors": ["include/huira_impl/cameras/apertures/aperture.ipp:build_defocus_kernel,get_defocus_kernel,generate_polyphase_data_", "include/huira_impl/cameras/apertures/circular_aperture.ipp:rasterize_kernel_", "include/huira_impl/cameras/camera_model.ipp:cast_ray,set_focus_distance"]}
{"id": "C138", "title": "Cached optics follow the camera's settings", "statement": "After any history of configuration calls the aperture's PSF and the blur kernels are those of the current focal length, aperture, sensor and focus distance, a user's own PSF is only replaced or removed by request, and no history crashes.", "quantifier": "all histories of configuration calls with all arguments, and every allocation that may fail", "why_tests_cant": "staleness depends on the order of calls; tests configure a camera once", "anchors": ["include/huira_impl/cameras/camera_model.ipp:set_focal_length,set_fstop,set_aperture,set_sensor,configure_sensor_from_pitch,use_aperture_psf,delete_psf,set_focus_distance", "include/huira_impl/handles/camera_handle.ipp:use_aperture_psf"]}
{"id": "C139", "title": "Blur and PSF apply once and to everything", "statement": "Rendering any accepted configuration is defined; the PSF is applied exactly once to each contribution when convolution is on; point sources and resolved objects go out of focus together and by the same amount.", "quantifier": "all reachable camera configurations, star directions and pixel positions", "why_tests_cant": "the two render passes decide independently from different members; only comparing them over all configurations shows the differences", "anchors": ["include/huira_impl/render/renderer.ipp:path_trace_,render_unresolved_", "include/huira_impl/cameras/camera_model.ipp:cast_ray"]}
{"id": "C140", "title": "An unresolved object is drawn with its own irradiance", "statement": "A rendered scene view shows every unresolved object (emitter, Lambertian sphere, asteroid) with the irradiance that its own position and its own light give in that view; an object whose irradiance the user fixed is drawn with exactly that.", "quantifier": "all scenes, all sets of instances of the same object, all lights, all orders of building views, setting irradiances and rendering, including views whose construction fails", "why_tests_cant": "the irradiance is stored in the shared object, so what an instance shows depends on every other instance and view of the same object ever built; a test only sees a few such histories", "anchors": ["include/huira_impl/scene/scene_view.ipp:SceneView", "include/huira_impl/render/renderer.ipp:render_unresolved_", "include/huira_impl/assets/unresolved/unresolved_sphere.ipp:resolve_irradiance", "include/huira_impl/assets/unresolved/unresolved_asteroid.ipp:resolve_irradiance", "include/huira_impl/assets/unresolved/unresolved_emitter.ipp:resolve_irradiance", "include/huira_impl/assets/unresolved/unresolved_object.ipp:resolve_irradiance"]}
{"id": "C141", "title": "Depth and normal maps show the order and direction they stand for", "statement": "depth_map maps every finite depth of an image to a grey value in [0, 0.8], the nearest to 0 and the farthest to 0.8, farther never darker, and background (infinite depth) to 1; normal_map maps unit normals into [0,1] invertibly; rgb_to_spectral keeps every pixel.", "quantifier": "all depth and normal images, including images without any finite depth and images of constant depth", "why_tests_cant": "the scale depends on the whole image; degenerate images (flat, empty, all background) are infinitely many", "anchors": ["include/huira/images/color_map.hpp:depth_map", "include/huira/images/color_map.hpp:normal_map", "include/huira/images/color_map.hpp:rgb_to_spectral"]}
{"id": "C142", "title": "A catalogue star shines with its catalogue magnitude", "statement": "The spectrum of a star loaded from Tycho-2 (BT, VT magnitudes) has, through a Johnson V filter, the photon flux of its V magnitude; its temperature and solid angle are positive, bluer stars are hotter, its irradiance is positive in every spectral bin, and five magnitudes are a factor of a hundred in every bin.", "quantifier": "all pairs of magnitudes, present or missing, and all spectral bin layouts", "why_tests_cant": "the calibration must hold for the continuum of colours and magnitudes; the formula has poles and changes sign for colours that occur as measurement errors", "anchors": ["include/huira_impl/stars/io/star_data.ipp:process_magnitude", "include/huira_impl/stars/star.ipp:compute_irradiance_", "include/huira_impl/core/physics.ipp:v_band_irradiance"]}
{"id": "C143", "title": "A star is where the catalogue says in the catalogue's year", "statement": "A star whose catalogue position is given at an epoch other than J2000 and that is observed in that year appears at its catalogue position.", "quantifier": "all positions, proper motions and epochs (also different epochs for the two coordinates)", "why_tests_cant": "the correction to J2000 and the motion from J2000 are two pieces of code that must be inverse to each other for all motions", "anchors": ["include/huira_impl/stars/io/star_data.ipp:normalize_epoch", "include/huira_impl/stars/star.ipp:compute_direction_", "include/huira_impl/stars/io/load_tycho2.ipp:read_tycho2_suppl"]}
{"id": "C144", "title": "Quantum efficiency stays a fraction and colours do not mix", "statement": "set_quantum_efficiency accepts exactly the spectra of fractions and otherwise throws and changes nothing; a pixel never frees more electrons than photons arrive in any band; the read-out of an RGB sensor gives three values in [0,1] per pixel and each colour depends on the light of that colour only, with or without noise.", "quantifier": "all spectra (NaN and infinities included), all histories of calls, all frames, exposures and random draws", "why_tests_cant": "ranges over all histories, frames and noise draws; independence of channels is a statement about pairs of runs", "anchors": ["include/huira_impl/cameras/sensors/sensor_model.ipp:set_quantum_efficiency", "include/huira/cameras/sensors/sensor_model.hpp:default_qe", "include/huira_impl/cameras/sensors/simple_sensor.ipp:readout", "include/huira_impl/core/spectral_bins.ipp:valid_ratio"]}
{"id": "C145", "title": "The text of a quantity can be trusted", "statement": "The unit shown by to_si_string/to_string identifies the dimension: two different dimensions never have the same text, every named SI unit is shown by its name, and the number before it is the value in that unit.", "quantifier": "all dimensions (any integer exponents of the nine base units), all values and scales", "why_tests_cant": "the texts of infinitely many dimensions must differ pairwise", "anchors": ["include/huira_impl/units/dimensionality.ipp:to_si_string", "include/huira_impl/units/quantity.ipp:to_string", "include/huira_impl/units/spectral_quantity.ipp:to_string"]}
{"id": "C146", "title": "A crash leaves one report, a log and a dead process", "statement": "Whenever and in whatever thread the program crashes (fault, abort, uncaught exception), with the crash handler enabled the thread never runs application code again, the process ends with the signal it would have ended with without huira, exactly one report is printed and the log file holds the buffered messages followed by the signal or exception and the open scopes; with the handler disabled the program ends as without huira.", "quantifier": "all crash points, all interleavings of any number of threads, crashes inside the handlers, all answers of the disk, all histories of enable_crash_handler", "why_tests_cant": "a test crashes at one point in one schedule; the claim ranges over all crash points, schedules and nested crashes", "anchors": ["include/huira_impl/util/logger.ipp:handle_crash", "include/huira_impl/util/logger.ipp:handle_terminate", "include/huira_impl/util/logger.ipp:enable_crash_handler", "include/huira_impl/util/logger.ipp:install_crash_handlers", "include/huira/util/logger.hpp:ScopeLogger"]}
{"id": "C147", "title": "Quantities in Python", "statement": "In Python every unit class can be combined with every other class of the same dimension: + and - give the sum and difference of what the operands measure in the left operand's unit, ==, <, <=, >, >= compare what is measured, a unit argument is read with its measure whatever its unit, Time + duration and Time - Time are exact inverses, += agrees with + for units without an offset, and anything that is not a quantity is refused. Refuted: dimensions are never checked (Meter + Second, Meter == Second, Time + Meter and a Second as a position are accepted); Celsius and Fahrenheit += and + differ by 273.15 and 459.67; the registered implicit conversions never work (a Kilometer where a Meter is declared, e.g. in new_sphere_light, is a TypeError); x += v changes other names of x exactly when v has x's class; == with None raises.", "quantifier": "every pair of the 69 bound unit classes and every value; every other Python object", "why_tests_cant": "tests try a few pairs of units; the claims range over all pairs and values, and the missing checks show only for combinations nobody tests", "anchors": ["bindings/python/include/huira/units/units_py.ipp: bind_quantity_type, unit_from_py, register_unit_conversions, bind_units", "bindings/python/include/huira/core/time_py.ipp: __add__, __sub__", "bindings/python/include/huira/scene/scene_py.ipp: new_sphere_light"]}
{"id": "C148", "title": "FITS metadata survive writing and reading", "statement": "The metadata of a FITS image that is written by write_image_fits and read by read_image_fits come back: every text, the comments, the history and the custom keywords unchanged and in order, and every number to the eleven digits (seven for the exposure time) the header keeps; the fields the caller leaves open are filled with the unit, the saturation level and the range of the values in the file.", "quantifier": "all metadata records, all images (also with undefined pixels), all sample formats", "why_tests_cant": "The metadata are unbounded text and lists and interact with the standard keys of the file; a test sees one record.", "anchors": ["include/huira_impl/images/io/fits_io.ipp", "include/huira/images/io/fits_metadata.hpp"]}
{"id": "C149", "title": "Quaternions read from a rotation are that rotation", "statement": "The quaternion returned by local_to_parent_quaternion has length one and turns every vector as the rotation does; parent_to_local_quaternion is its conjugate; building a rotation from either (in Hamilton or Shuster component order) gives the rotation back; a rotation built from a unit quaternion returns that quaternion or its opposite; quaternions of composed rotations are products; quaternions that are not of length one are rejected or normalised.", "quantifier": "all rotations, all quaternions, all vectors", "why_tests_cant": "Four branches of the matrix to quaternion conversion meet where two components are equal; signs and orders agree on symmetric examples.", "anchors": ["include/huira_impl/core/rotation.ipp", "include/huira/core/types.hpp"]}
{"id": "C150", "title": "Loading a model file gives exactly the file's triangles, materials and placements, or leaves the scene as it was", "statement": "Scene::load_model either returns a model whose instances are exactly the placements of the file (one per node and mesh, with the node's chain of transforms), whose primitives show the file's triangles in order with the file's positions, normals, texture coordinates (v flipped), colours and tangents and the mesh's material, or it throws and changes nothing. What was in the scene before is untouched either way. A file is accepted exactly when its triangles have their vertices, its meshes their materials, its nodes their meshes, and its matrices are near rotations with scale. The model gets the name asked for, or the first free numbered one.", "quantifier": "every parsed file (any number of meshes, vertices, faces, materials, any node tree), every scene it is loaded into, every name", "why_tests_cant": "files and scenes are unbounded, and what a failing load leaves behind depends on where in the file the fault is", "anchors": ["include/huira_impl/assets/io/model_loader.ipp:ModelLoader::load", "include/huira_impl/assets/io/model_loader.ipp:ModelLoader::convert_mesh_", "include/huira_impl/assets/io/model_loader.ipp:ModelLoader::process_node_", "include/huira_impl/scene/scene.ipp:Scene::load_model", "include/huira_impl/scene/scene.ipp:Scene::add_primitive", "include/huira_impl/geometry/mesh.ipp:Mesh::Mesh"]}
{"id": "C151", "title": "Dates and moments survive double precision", "statement": "A Julian date given to Time::from_julian_date (TDB) is returned unchanged by to_julian_date, and later dates are later moments; the moment is within 8 microseconds of the exact one and exact at midnight and noon. A moment within 950 years of J2000 comes back from its Julian date within 30 microseconds. A modified Julian date comes back as given. julian_years_since_j2000 has the sign of the moment and a relative error of 2^-53. An interval built from a start and a duration lasts that long.", "quantifier": "all double dates from year 1037 to 4870, all double moments and durations in the stated ranges, with every operation rounded to binary64", "why_tests_cant": "Rounding of sums of numbers of different size depends on every bit of the operands; a sample of dates meets none of the ties or lost bits.", "anchors": ["include/huira_impl/core/time.ipp:from_julian_date", "include/huira_impl/core/time.ipp:to_julian_date", "include/huira_impl/core/time.ipp:from_modified_julian_date", "include/huira_impl/core/time.ipp:to_modified_julian_date", "include/huira_impl/core/time.ipp:julian_years_since_j2000", "include/huira_impl/core/time.ipp:operator+", "include/huira/core/interval.hpp"]}
{"id": "C152", "title": "The stars of a scene are those of the last load, at the last epoch asked for", "statement": "After any sequence of set_stars, load_stars, load_dynamic_stars and update_star_epoch, the scene shows exactly the stars of the last of the loading calls that did not throw: the given list, the catalogue at the load's epoch, or, for dynamic stars, the catalogue at the epoch of the last update that did not throw, as if freshly loaded at that epoch (no drift, same light). A call that throws changes nothing, and no update reads outside the catalogue.", "quantifier": "every history of calls, every catalogue, every epoch, every set of SPICE kernels loaded at each call, every schedule of the parallel loops", "why_tests_cant": "The result of an update depends on the whole history of loads and failures and on the order of threads; tests try a few.", "anchors": ["include/huira_impl/scene/scene.ipp:set_stars", "include/huira_impl/scene/scene.ipp:load_stars", "include/huira_impl/scene/scene.ipp:load_dynamic_stars", "include/huira_impl/scene/scene.ipp:update_star_epoch", "include/huira_impl/stars/star.ipp:update_direction"]}
{"id": "C153", "title": "A node on a Keplerian orbit follows the orbit asked for", "statement": "A node with set_keplerian_orbit(a, e, i, raan, argp, M0, epoch, mu) moves as a body under the gravity mu (km^3/s^2) of the origin: its velocity is the derivative of its position and its acceleration is -mu r / |r|^3; it stays in the plane given by i and raan, turning the right way with constant angular momentum; at mean anomaly 0 it is in the direction given by argp; its distance runs from a(1-e) to a(1+e) and it is back after 2 pi sqrt(a^3/mu). Values that give no orbit are refused.", "quantifier": "all elements of elliptic orbits, all times, every solver of Kepler's equation", "why_tests_cant": "The motion is a differential equation that must hold at every instant; checking a few instants, or a circular orbit, cannot tell a semi-major axis from a periapsis distance.", "anchors": ["include/huira_impl/scene/node.ipp:set_keplerian_orbit", "include/huira/scene/state_callbacks/keplerian_orbit.hpp:KeplerianOrbitCallback", "include/huira_impl/core/spice.ipp:conics"]}
{"id": "C154", "title": "Spectrum arithmetic works bin by bin", "statement": "Every operator on spectra works bin by bin: s op t, s op k, k op s and the assignments s op= t and s op= k give in each bin the operation on that bin's values, whatever the argument is - also the spectrum itself or one of its own bins (normalising with s /= s[0]). Braces {a, b, c} make the spectrum with these bins. In Python a spectrum is also a sequence: made from a list exactly when the lengths agree, read back by to_list, by index and by a for loop without loss; s[i] = v changes that bin only; after x op= r, x holds x op r, and another variable changes only if it names the same spectrum and r is a spectrum.", "quantifier": "all spectra of any number of bins and any binary32 values (infinities and NaN included), all operators, every argument and every aliasing between arguments and the object, all Python programs' variables", "why_tests_cant": "the values and the ways an argument can refer into the object it is assigned to are unbounded; tests pass separate numbers", "anchors": ["include/huira_impl/core/spectral_bins.ipp:SpectralBins::operator/=", "include/huira_impl/core/spectral_bins.ipp:SpectralBins::SpectralBins", "include/huira/core/spectral_bins.hpp:SpectralBins", "bindings/python/include/huira/core/spectral_bins_py.ipp:bind_spectral_bins"]}
{"id": "C155", "title": "An exposure's moments lie in the exposure, in order, at the precision of a double", "statement": "The centre of an exposure is not before its start and not after its end; the duration is zero only if start and end coincide and never negative otherwise; the samples of an exposure begin at its start, never go back in time, lie inside the exposure and are evenly spaced; from_centered gives an exposure that contains the moment asked for, with its ends half the duration away. An instant is sampled at that instant only. Moments are computed in double precision: within 34 years of J2000 and for exposures below 12 days every one of them is off by at most a quarter microsecond.", "quantifier": "all pairs of doubles as start and end (finite, no overflow), all durations, all numbers of samples from 2 to 2^24 + 1, every sample", "why_tests_cant": "rounding depends on every bit of start, end and the number of samples; a sample after the end appears only for some of them (188 samples of three seconds)", "anchors": ["include/huira/core/interval.hpp:Interval::from_centered", "include/huira/core/interval.hpp:Interval::center", "include/huira/core/interval.hpp:Interval::samples", "include/huira/core/interval.hpp:Interval::duration", "bindings/python/include/huira/core/interval_py.ipp:bind_interval"]}
