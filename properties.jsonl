{"id": "C01", "title": "Face-mask strings select exactly the named faces", "statement": "A face-mask string of a mesh card (block, surface, plane wave) is accepted only if it denotes a binary number between 0 and 63, and then face n (XLO,XHI,YLO,YHI,ZLO,ZHI) is active exactly when the corresponding binary digit (most significant = XLO) is 1; every 6-digit 0/1 string is accepted and two different 6-digit strings select different face sets.", "quantifier": "every string of characters", "why_tests_cant": "the space of strings is infinite; tests sample a few masks", "anchors": ["src/bounding_box.c:setFaceMaskFromString", "src/bounding_box.c:isFaceActive", "src/bounding_box.c:faceMask2boolArray", "src/fdtd_types.c:FACE_MASKS"]}
{"id": "C02", "title": "Bounding boxes are classified by dimension and orientation", "statement": "A box given on a card is a point, line, surface or volume according to the number of axes with non-zero extent (3,2,1,0 degenerate axes), and its reported direction is the axis along the line / normal to the surface; the face boxes, the offset to grid coordinates and the field/face orientation predicates agree with the geometry.", "quantifier": "every integer bounding box, face, field component and offset", "why_tests_cant": "infinite coordinate space; every combination of degenerate axes and signs", "anchors": ["src/bounding_box.c:bboxType", "src/bounding_box.c:bboxDirection", "src/bounding_box.c:getFaceOfBoundingBox", "src/bounding_box.c:fieldIsInBoundary", "src/bounding_box.h:offsetBoundingBox"]}
{"id": "C03", "title": "Only well-formed boxes inside the mesh are accepted", "statement": "Every box accepted by the card parsers (MB, TB, TW, EX, PW, OP) is ordered (lo<=hi on every axis) and lies within the mesh box.", "quantifier": "every six integers on a card and every mesh size", "why_tests_cant": "needs all integer sextuples; a missing axis check only shows on particular orderings", "anchors": ["src/bounding_box.h:bboxIsNormal", "src/bounding_box.h:bboxIsWithin", "src/bounding_box.c:bboxIsElemental", "src/block.c:parseMB", "src/surface.c:parseTB", "src/line.c:parseTW"]}
{"id": "C04", "title": "Field limits enumerate exactly the Yee points of a box", "statement": "For any box and any choice of included faces, the index ranges used to loop over a field component contain exactly the staggered points of that component that lie in the box, where a point lying on an excluded face is left out.", "quantifier": "every box, every inclusion mask, every field component and grid point", "why_tests_cant": "off-by-one boundaries must be right for all boxes and all 64 masks", "anchors": ["src/grid.c:setFieldLimits", "src/bounding_box.c:fieldIsInBoundary"]}
{"id": "C05", "title": "The grid extents nest and the arrays cover them", "statement": "For every mesh size and every number of boundary layers the inner grid lies inside the outer grid inside the allocated arrays, the inner grid has exactly the mesh's number of cells, layers are added exactly on the requested faces, and a mesh box is mapped into the inner grid.", "quantifier": "every mesh size >=1 and layer count >=0 per face", "why_tests_cant": "unbounded sizes", "anchors": ["src/grid.c:setGridExtents", "src/grid.c:parseDM", "src/surface.c:initExternalSurfaceParameters"]}
{"id": "C06", "title": "No time-step loop accesses memory outside an allocated array", "statement": "For every mesh size, every combination of external boundary types and layer counts, the E and H updates of grid, PML, Mur and ghost cells, and the media initialisation loops, read and write only inside allocated arrays.", "quantifier": "every mesh size, boundary combination and layer count, every iteration", "why_tests_cant": "out-of-bounds accesses at particular sizes/corners may not crash in a test", "anchors": ["src/grid.c:updateGridEfield", "src/grid.c:updateGridHfield", "src/pml.c:updatePmlEfield", "src/pml.c:updatePmlHfield", "src/mur.c:updateMurEfield", "src/mur.c:updateMurHfield", "src/surface.c:updateGhostEfield", "src/surface.c:updateGhostHfield", "src/grid.c:setMediumOnGrid"]}
{"id": "C07", "title": "Every field value of the outer grid is updated exactly once per time step", "statement": "In each time step every E and every H value in the outer grid is updated exactly once, by the grid, PML or Mur update (what the CHECK_LIMITS build tests for one run), except E values on a mesh edge where two MUR faces meet (see C46); nothing outside the outer grid is updated by these phases.", "quantifier": "every mesh size and every combination of boundary types and layers", "why_tests_cant": "the code's own limit-checking mode tests one mesh at a time", "anchors": ["src/grid.c:updateGridEfield", "src/pml.c:setPmlLimits", "src/mur.c:initMurBoundaries", "src/grid.c:initFieldArrayLimits", "src/grid.c:checkGrid"]}
{"id": "C08", "title": "Results do not depend on the OpenMP schedule", "statement": "The fields after a time step are the same for every number of threads and every interleaving of the parallel loops, and equal those of the sequential build; no parallel loop has a data race.", "quantifier": "every interleaving of individual reads and writes, any number of iterations, any arithmetic (including rounding)", "why_tests_cant": "races are schedule dependent", "anchors": ["src/grid.c:updateGridEfield", "src/grid.c:updateGridHfield", "src/pml.c:updatePmlEfield", "src/pml.c:updatePmlHfield", "src/mur.c:updateMurEfield", "src/mur.c:updateMurHfield"]}
{"id": "C09", "title": "Signals travel at most one cell per time step", "statement": "Changing the fields at one place can change the fields at another place only after at least as many time steps as the distance in cells along any non-periodic axis; fields further away are bit-identical. (The plane of a MUR face counts with the first cell inside it.)", "quantifier": "every pair of initial states, every number of steps, every arithmetic", "why_tests_cant": "all pairs of states and all distances", "anchors": ["src/grid.c:updateGridEfield", "src/grid.c:updateGridHfield", "src/pml.c:updatePmlEfield", "src/mur.c:updateMurEfield", "src/surface.c:updateGhostHfield"]}
{"id": "C10", "title": "Superposition", "statement": "The response is linear: the fields produced by a weighted sum of two excitations and initial states are the same weighted sum of the individual responses, with any boundaries.", "quantifier": "every pair of histories, all weights, any number of steps", "why_tests_cant": "infinite family of inputs", "anchors": ["src/simulation.c:propagate", "src/grid.c:updateGridEfield", "src/pml.c:updatePmlEfield", "src/mur.c:updateMurEfield", "src/source.c:updateSourcesEfield"]}
{"id": "C11", "title": "A quiescent grid stays quiescent", "statement": "With no excitation and zero initial fields all fields (including PML auxiliary fields) stay zero for ever.", "quantifier": "all time steps, all configurations", "why_tests_cant": "unbounded time", "anchors": ["src/simulation.c:propagate", "src/grid.c:clearGrid", "src/pml.c:clearPml"]}
{"id": "C12", "title": "The magnetic update creates no magnetic charge", "statement": "The discrete divergence of B=mu*H over every cell is unchanged by every magnetic field update, for any E field, any non-uniform mesh.", "quantifier": "every E and H field, every cell, every mesh spacing", "why_tests_cant": "universally quantified over real-valued fields", "anchors": ["src/grid.c:updateGridHfield", "src/grid.h:curl_Ex"]}
{"id": "C13", "title": "Energy is conserved in a lossless closed cavity", "statement": "In a mesh bounded by PEC walls filled with lossless media the discrete electromagnetic energy (with the leap-frog product for H) is exactly conserved from step to step (exact arithmetic), on any non-uniform mesh.", "quantifier": "every initial field, every number of steps, every mesh", "why_tests_cant": "a global identity over all fields", "anchors": ["src/grid.c:updateGridEfield", "src/grid.c:updateGridHfield", "src/grid.c:initCellEdges", "src/surface.c:initExternalPecPmcSurfaces"]}
{"id": "C14", "title": "Tangential E on PEC is always zero", "statement": "Wherever the medium is PEC (PEC walls, PEC surfaces and blocks, backing of the PML) the tangential electric field starts at zero and stays zero at every time step whatever happens elsewhere.", "quantifier": "every time step, every field history", "why_tests_cant": "unbounded time, all histories", "anchors": ["src/medium.c:initMedia", "src/surface.c:initExternalPecPmcSurfaces", "src/grid.c:setMediumOnGrid", "src/grid.c:updateGridEfield"]}
{"id": "C15", "title": "PMC walls act as magnetic mirrors", "statement": "A face declared PMC behaves as the symmetry plane of the mirror-extended problem: after every step ghost tangential H is minus the H just inside, so the tangential E on the wall is updated with twice the inside H / ghost image.", "quantifier": "every field and every wall point including edges and corners", "why_tests_cant": "all fields, all corner cases", "anchors": ["src/surface.c:updateGhostHfield", "src/surface.c:updateGhostEfield"]}
{"id": "C16", "title": "Periodic faces wrap", "statement": "With PERIODIC on a pair of faces the fields on the two faces remain equal at every time step (the mesh repeats).", "quantifier": "every time step, every field, every mesh", "why_tests_cant": "unbounded time", "anchors": ["src/surface.c:updateGhostHfield", "src/grid.c:initCellEdges", "src/surface.c:initExternalSurfaceParameters"]}
{"id": "C17", "title": "Media coefficients are those of the declared medium and passive", "statement": "A SIMPLE medium with eps_r>=1, sigma>=0, mu_r>=1 gets alpha in (-1,1], beta>0, gamma>0 equal to the semi-implicit coefficients; lossless gives alpha=1; PEC gives alpha=-1, beta=0; a Debye medium's recursion coefficient has modulus <=1 when its pole is in the left half plane.", "quantifier": "all real parameters", "why_tests_cant": "real-valued parameter space", "anchors": ["src/medium.c:calcCoeffFromParam", "src/medium.c:initMedia", "src/medium.c:parseMT"]}
{"id": "C18", "title": "The last block that covers a cell edge determines its medium", "statement": "After applying blocks in file order, every E/H point has the medium of the last block containing it (free space when none) and points outside all blocks are unaffected.", "quantifier": "every list of blocks", "why_tests_cant": "all sequences of overlapping boxes", "anchors": ["src/block.c:initBlocks", "src/grid.c:setMediumOnGrid", "src/grid.c:initMediaArrays"]}
{"id": "C19", "title": "Names resolve to the declared boundary/medium/waveform", "statement": "Registries give consecutive numbers, reject duplicate names, and look-ups by name and number return the item declared with that name, with the predefined entries at fixed numbers.", "quantifier": "every sequence of declarations", "why_tests_cant": "all histories of declarations", "anchors": ["src/boundary.c:addBoundary", "src/boundary.c:isBoundary", "src/medium.c:addMedium", "src/waveform.c:addWaveform", "src/mesh.c:initMesh"]}
{"id": "C20", "title": "A mesh file is accepted only if its cards come in section order and the required ones are present", "statement": "Reading succeeds only for files whose cards appear in their allowed sections, with unique/compulsory cards satisfied, one mesh definition and an EN card at the end.", "quantifier": "every finite sequence of lines", "why_tests_cant": "all card sequences", "anchors": ["src/mesh.c:readMesh", "src/mesh.c:parser"]}
{"id": "C21", "title": "Comments and surrounding white space never change the meaning of a line", "statement": "Removing comments deletes exactly the text from the comment character on; trimming removes exactly leading and trailing white space and is idempotent; no line makes the reader access memory outside the line.", "quantifier": "every string", "why_tests_cant": "all strings", "anchors": ["src/mesh.c:removeComments", "src/mesh.c:strtrim", "src/mesh.c:getCardType"]}
{"id": "C22", "title": "The time step satisfies the Courant limit", "statement": "The time step is positive and at most CN/(c0*sqrt(1/dx^2+1/dy^2+1/dz^2)) for every cell of the mesh, hence below the stability limit for every CN accepted.", "quantifier": "every mesh with increasing lines, every accepted Courant number", "why_tests_cant": "real-valued mesh spacings", "anchors": ["src/grid.c:initCellEdges", "src/simulation.c:parseCN", "src/simulation.c:initSimulation"]}
{"id": "C23", "title": "Cell edge lengths match the mesh lines", "statement": "Primary edge lengths are the differences of mesh lines inside the mesh and copies of the first/last cell in the boundary layers; secondary lengths are the averages; inverses are inverses; all are positive when the lines increase.", "quantifier": "every strictly increasing line array, every layer count", "why_tests_cant": "real arrays of any size", "anchors": ["src/grid.c:initCellEdges", "src/grid.c:setUniformMesh", "src/grid.c:parseMS"]}
{"id": "C24", "title": "Waveforms have their documented shape", "statement": "The built-in waveforms have the documented support, bounds and symmetric shape, and the derivative waveforms are proportional to the derivative of the corresponding pulse.", "quantifier": "all real times and parameters", "why_tests_cant": "real-valued time", "anchors": ["src/waveform.c:getWaveformValue", "src/waveform.c:gaussianPulse", "src/waveform.c:compactPulse", "src/waveform.c:diffCompactPulse"]}
{"id": "C25", "title": "External waveforms interpolate their samples", "statement": "A waveform read from a file takes the sampled value at each sample time, is zero outside the sampled range, and the value returned does not depend on the order or history of previous evaluations (cached interval).", "quantifier": "every sample table, every query sequence", "why_tests_cant": "all query histories", "anchors": ["src/waveform.c:createSplines", "src/waveform.c:evalSpline", "src/waveform.c:externalWaveform"]}
{"id": "C26", "title": "Hard sources impose, soft sources add", "statement": "Each step a hard E/H source sets its field components to the waveform value, a soft one adds it; only the source box is affected; lumped source sizes convert volts/amps to field by the edge length/area.", "quantifier": "every source box, waveform value and prior field", "why_tests_cant": "all fields", "anchors": ["src/source.c:updateSourcesEfield", "src/source.c:updateSourcesHfield", "src/source.c:initSources"]}
{"id": "C27", "title": "The plane-wave box injects exactly the incident field", "statement": "If the incident field obeys the discrete equations, then with a plane wave box active and no scatterer the total field equals the incident field inside the box and zero outside at every step.", "quantifier": "every discrete incident solution, box, mesh and time", "why_tests_cant": "all solutions and steps", "anchors": ["src/planewave.c:updatePlaneWavesEfield", "src/planewave.c:updatePlaneWavesHfield", "src/planewave.c:initPlaneWaves"]}
{"id": "C28", "title": "Incident plane waves are transverse", "statement": "The propagation vector is a unit vector, E is a unit vector orthogonal to it, H = k x E / eta0, for every angle accepted by the PW card. The incident field at a point is the waveform delayed by the travel time from the origin corner of the box, so nothing arrives anywhere in the box before the wave front does.", "quantifier": "all real angles, points and times", "why_tests_cant": "real-valued angles and coordinates", "anchors": ["src/planewave.c:calcIncidentFieldVectors", "src/planewave.c:parsePW"]}
{"id": "C29", "title": "Auxiliary-grid look-ups stay inside the auxiliary grid", "statement": "For any box size and propagation direction the 1D incident-field look-up indices stay inside the allocated auxiliary arrays.", "quantifier": "all directions and box sizes", "why_tests_cant": "real-valued directions; unbounded sizes", "anchors": ["src/planewave.c:initAuxGrid", "src/planewave.c:incidentFieldAuxGrid"]}
{"id": "C30", "title": "Frequency-domain observers output the normalised discrete Fourier transform", "statement": "The recorded spectrum is the sum over the output time window (OT card) of the field times exp(-j w t), divided by the same sum for the reference waveform.", "quantifier": "all signals and frequencies, any number of steps", "why_tests_cant": "all signals", "anchors": ["src/observer.c:updateObservers", "src/observer.c:flushObservers"]}
{"id": "C31", "title": "Observer headers announce the number of records actually written", "statement": "For every OP/OT/OF card combination accepted, the number of nodes, time steps and frequencies announced in the output equals the number written.", "quantifier": "all boxes, steps and time ranges", "why_tests_cant": "unbounded ranges", "anchors": ["src/observer.c:getNumberOfOutputNodes", "src/observer.c:updateImpulseDat", "src/observer.c:parseOT", "src/observer.c:parseOF"]}
{"id": "C32", "title": "Exactly NT time steps are performed", "statement": "The simulation performs exactly the requested number of time steps and terminates.", "quantifier": "every NT value", "why_tests_cant": "boundary of unsigned arithmetic", "anchors": ["src/simulation.c:propagate", "src/simulation.c:parseNT"]}
{"id": "C33", "title": "The PML profile is passive and a PML with no loss is transparent", "statement": "All profile coefficients are positive, |a|<=1, continuous with the interior; with zero conductivity and kappa=1 the PML update is the plain grid update.", "quantifier": "all profiles, orders, depths; all fields", "why_tests_cant": "real-valued parameters", "anchors": ["src/pml.c:setProfile", "src/pml.c:pmlSigmaProfile", "src/pml.c:updatePmlEfield", "src/pml.c:updatePmlHfield"]}
{"id": "C34", "title": "The Mur boundary absorbs a normally incident wave at the free-space speed", "statement": "The Mur coefficient is in (-1,1) for every stable time step and the boundary update propagates a normally incident wave that moves exactly one cell per step without reflection.", "quantifier": "all meshes and time steps, all wave shapes", "why_tests_cant": "real-valued", "anchors": ["src/mur.c:initMurBoundaries", "src/mur.c:updateMurEfield"]}
{"id": "C35", "title": "Material is continued straight into the PML", "statement": "Each PML cell carries the material of the mesh cell adjacent to it on the inner boundary.", "quantifier": "every material distribution, mesh and PML depth", "why_tests_cant": "all distributions", "anchors": ["src/pml.c:initPmlMaterialArrays"]}
{"id": "C36", "title": "Array allocation gives every element its own memory", "statement": "For 1-, 2- and 3-dimensional arrays of any positive size the elements and pointer tables are disjoint, inside the allocated block, and aligned.", "quantifier": "every size and element index", "why_tests_cant": "unbounded sizes", "anchors": ["src/alloc_array.c:allocArray"]}
{"id": "C37", "title": "Mesh export numbers nodes uniquely", "statement": "Node numbers in the exported mesh are positive and different nodes get different numbers.", "quantifier": "all nodes of every mesh", "why_tests_cant": "unbounded", "anchors": ["src/gmsh.c:encodeNodeNumber"]}
{"id": "C38", "title": "Sheet impedance equals the impedance of the given scattering parameters", "statement": "The impedance matrix computed from S parameters satisfies Z(I-S)=eta0(I+S); only passive S matrices are accepted.", "quantifier": "every real 2x2 S matrix", "why_tests_cant": "real-valued", "anchors": ["src/sibc.c:tportS2Z", "src/sibc.c:isPassiveS"]}
{"id": "C39", "title": "Recursive-convolution filters are exact for piecewise-linear inputs", "statement": "The discrete filter built from poles (none at the origin) and residues returns, at every sample, the exact convolution with the pole-residue impulse response of the input that is linear between samples.", "quantifier": "all inputs, all poles and residues", "why_tests_cant": "all signals", "anchors": ["src/filter.c:yfPoleResidue2RecConv", "src/filter.c:yfRecConvStep"]}
{"id": "C40", "title": "Command-line handling never crashes", "statement": "Every argument vector of vulture and of gvulture is either accepted, or rejected with the usage text; options set exactly the documented flags, and a run needs exactly one mesh file.", "quantifier": "every argument vector of either program", "why_tests_cant": "all argument vectors", "anchors": ["src/vulture.c:parseOption", "src/gvulture.c:parseOption"]}
{"id": "C41", "title": "External boundaries are completed consistently", "statement": "After set-up every face has a boundary; layers are zero unless PML; missing faces get the default PML; PERIODIC faces come in opposite pairs or the run is refused.", "quantifier": "every combination of declarations for the six faces", "why_tests_cant": "7^6 combinations times layer counts", "anchors": ["src/surface.c:initExternalSurfaceParameters", "src/surface.c:parseBR", "src/boundary.c:parseBE"]}
{"id": "C42", "title": "Fractional mesh coordinates map linearly between mesh lines", "statement": "The physical position of a fractional node index is the mesh line at integers, linear in between, extrapolated linearly outside, strictly increasing; field positions are at the staggered offsets.", "quantifier": "all real indices, all meshes", "why_tests_cant": "real-valued", "anchors": ["src/grid.c:nodeInPhysicalUnits", "src/grid.c:getFieldPhysicalLocation", "src/grid.c:getFieldIndexLocation"]}
{"id": "C43", "title": "A mesh is reported uniform only if its cells have equal size", "statement": "The grid type is CUBIC/UNIFORM only if neighbouring cell sizes agree to the tolerance, else NONUNIFORM.", "quantifier": "all meshes", "why_tests_cant": "real-valued", "anchors": ["src/grid.c:setGridType"]}
{"id": "C44", "title": "Later blocks fully replace dispersive ones", "statement": "Where a later block overwrites a dispersive (Debye) block the field update is that of the later block; dispersive polarisation is applied exactly once per point.", "quantifier": "all block lists", "why_tests_cant": "all overlap configurations", "anchors": ["src/debye.c:initDebyeBlocks", "src/debye.c:updateDebyeBlocksEfield"]}
{"id": "C45", "title": "Hard-source observers see the waveform at its own time", "statement": "The value recorded at a hard source for time t is the waveform value at time t.", "quantifier": "every waveform and step", "why_tests_cant": "clock skew by one step is invisible in shape tests", "anchors": ["src/simulation.c:propagate", "src/observer.c:updateObservers", "src/source.c:updateSourcesEfield"]}
{"id": "C46", "title": "MUR absorbing faces that meet at an edge update the fields on the edge", "statement": "With MUR on adjacent faces the tangential E field on their common edge is updated in every time step like the rest of the boundary.", "quantifier": "every mesh with adjacent MUR faces, every step", "why_tests_cant": "needs the absence of any update over all steps", "anchors": ["src/mur.c:initMurBoundaries", "src/mur.c:deselectAdjacentEdgesByType"]}
{"id": "C47", "title": "The PML depth card affects only the boundaries of the named faces", "statement": "A BE card sets the layer counts of the six external faces and changes no other boundary; when a face has no boundary yet it is rejected or remembered.", "quantifier": "every boundary registry and BE card", "why_tests_cant": "depends on the order of cards", "anchors": ["src/boundary.c:parseBE"]}
{"id": "C48", "title": "A medium declared with type PEC conducts perfectly", "statement": "A medium the user declares as MT <name> PEC gets the coefficients of the predefined PEC (alpha=-1, beta=0).", "quantifier": "every name and every time step length", "why_tests_cant": "depends on which medium number the forced coefficients are written to", "anchors": ["src/medium.c:parseMT", "src/medium.c:initMedia"]}
{"id": "C49", "title": "Dispersive media obey the documented dispersion relation", "statement": "At a point of a Debye block that nothing else drives, for every history of the curl of H, the field satisfies Ampere's law with permittivity eps_inf + sum of the conjugate pole pairs (UserManual), discretised with centred differences, at every step.", "quantifier": "every medium with stable poles, every history, every step", "why_tests_cant": "unbounded histories and real parameters", "anchors": ["src/debye.c:updateDebyeBlocksEfield", "src/debye.c:initDebyeBlocks", "src/medium.c:calcCoeffFromParam"]}
{"id": "C50", "title": "Only stable Debye poles are accepted", "statement": "Every Debye medium accepted, from a file or from the MT card, has its poles in the closed left half plane, so its polarisation recursion does not grow.", "quantifier": "every MT card and Debye file", "why_tests_cant": "real parameters", "anchors": ["src/medium.c:parseMT", "src/medium.c:readDebyeParameters"]}
{"id": "C51", "title": "Waveform cards use the documented parameters and formulas", "statement": "A WF card yields a waveform with exactly the size, delay, width and frequency written on it, the defaults of the user manual for those left out, and the formula of the user manual for its type.", "quantifier": "every accepted WF card, every time step", "why_tests_cant": "the claim is about all real parameters and the documentation of all types, not a few sampled values", "anchors": ["src/waveform.c:parseWF", "src/waveform.c:initWaveforms", "src/waveform.c:getWaveformValue", "doc UserManual.tex:1600-1704"]}
{"id": "C52", "title": "Surface current sources are normalised by the sheet width", "statement": "A surface current source given in A/m drives through every cell of its sheet a total current equal to the given density times the width of the cell across the flow, whatever the shape of the sheet.", "quantifier": "every sheet box, orientation and mesh", "why_tests_cant": "all boxes and meshes", "anchors": ["src/source.c:initSources", "doc UserManual.tex EX"]}
{"id": "C53", "title": "A lumped voltage source behaves as its Thevenin circuit", "statement": "The current injected through the edge of a lumped voltage source equals (open circuit voltage - terminal voltage)/resistance at every step; with zero resistance the terminal voltage equals the source voltage.", "quantifier": "every field, mesh, waveform and resistance >= 0", "why_tests_cant": "all fields and resistances", "anchors": ["src/source.c:updateSourcesEfield", "src/source.c:initSources"]}
{"id": "C54", "title": "Every documented source type is accepted", "statement": "Each source type tag listed in the user manual is accepted by the EX card and selects the documented component.", "quantifier": "every EX card", "why_tests_cant": "the whole tag set", "anchors": ["src/source.c:parseEX", "doc UserManual.tex EX"]}
{"id": "C55", "title": "Output frequencies are the requested ones", "statement": "The frequencies listed in every frequency-domain output run in equal steps from the first to the last frequency of the OF card and are as many as requested; without an OF card they are the documented default set.", "quantifier": "every OF card and time-step count, any real frequencies", "why_tests_cant": "all real-valued requests", "anchors": ["src/observer.c:parseOF", "src/observer.c:initObservers", "src/observer.c:flushObserverDft", "doc/UserManual OF"]}
{"id": "C56", "title": "A BR card assigns the coded boundary to each face", "statement": "A BR card gives each of the six faces of the mesh the boundary coded by its number (-1 PEC, 0 PML of six layers, 1 PMC), is rejected exactly when some number is none of these, and leaves every boundary declared before or under another name as it was.", "quantifier": "every registry of boundaries and every BR card", "why_tests_cant": "all registries and all card values", "anchors": ["src/surface.c:parseBR", "src/boundary.c:addBoundary"]}
{"id": "C57", "title": "Away from the absorbing layers a time step is Yee's scheme", "statement": "One step takes every component of E in the mesh box that is not on a MUR face and not driven to alpha E + beta curl H, and every such component of H to H - gamma curl E', with the curls of the staggered grid and E' the field after the step.", "quantifier": "every mesh, boundary assignment, source set, field state and grid point", "why_tests_cant": "all field states and meshes; and the update must not depend on the order of the loops", "anchors": ["src/grid.c:updateGridEfield", "src/grid.c:updateGridHfield", "src/fdtd_types.h curl macros"]}
{"id": "C58", "title": "Exported mesh shows every object completely and consistently", "statement": "A written gmsh file is well formed (announced counts equal the number of records; node, element and group numbers unique; elements refer only to listed nodes and to a listed group of their own dimension; only used nodes are listed) and contains, for every surface, block, line, source, plane-wave face and observer, exactly one element per cell (or sample node) of its box, with the corners of that cell as nodes, under the object's group. Every accepted mesh can be exported.", "quantifier": "all meshes, all sets of objects, all boxes", "why_tests_cant": "unbounded number of objects, cells and shared nodes; numbering and counting must agree for all of them", "anchors": ["src/gmsh.c:gmshMesh", "src/gmsh.c:gmshAddEntity", "src/gmsh.c:gmshWrite", "src/gmsh.c:addElement", "src/gmsh.c:addGroupIfNew", "src/block.c:gmshBlocks", "src/surface.c:gmshInternalSurfaces", "src/surface.c:gmshExternalSurfaces", "src/line.c:gmshLines", "src/source.c:gmshSources", "src/planewave.c:gmshPlaneWaves", "src/observer.c:gmshObservers"]}
{"id": "C59", "title": "Plane-wave and source excitation never leaves the arrays and is race free", "statement": "For every run driven by any accepted EX sources and any accepted, ordered PW boxes (any face mask, any incident values), no update reads or writes outside the allocated field, coefficient and cell-size arrays; the parallel correction loops have no data race, so every thread schedule gives the same fields; and the analytic incident field is only looked up at points where its tables are defined, provided no active low face lies on the mesh boundary.", "quantifier": "all meshes, boundary types, source lists, plane-wave lists, masks, incident values, step counts and thread schedules", "why_tests_cant": "unbounded family of loop bounds and interleavings; a racy or out-of-bounds access often has no visible effect in a test", "anchors": ["src/planewave.c:updatePlaneWavesEfield", "src/planewave.c:updatePlaneWavesHfield", "src/planewave.c:initPlaneWaves", "src/planewave.c:incidentFieldAnalytic", "src/planewave.c:parsePW", "src/source.c:updateSourcesEfield", "src/simulation.c:propagate", "src/grid.c:getFieldPhysicalLocation"]}
{"id": "C60", "title": "An impedance sheet scatters as its S parameters say, and passively", "statement": "A face of an impedance sheet turned by any angle and in either orientation reflects and transmits waves polarised along its two principal axes exactly as the given TM and TE scattering matrices say, whatever fields came before; if the matrices are passive it never delivers power to the fields; turning the sheet over exchanges its two ports; a sheet whose two polarisations have the same (frequency-dependent) filters responds the same at every angle.", "quantifier": "all accepted S matrices, filters, angles, orientations, fields and histories", "why_tests_cant": "real-valued and history dependent", "anchors": ["src/sibc.c:initSibcBoundary", "src/sibc.c:updateSibcSurfacesEfield", "src/sibc.c:matMulVector", "src/sibc.c:matLinearComb", "src/filter.c:yfRecConvStep"]}
{"id": "C61", "title": "Impedance sheets act on the mesh through the discrete curl and stay inside memory", "statement": "For any accepted surfaces no sheet update reads or writes outside the arrays, and all face-adjacency flags used are defined and right; the magnetic field on each side of parallel flat sheets changes exactly as the field update would change it for an electric field on the sheet that is the average of the two faces at each edge; the magnetic field through a sheet stays zero; the same sheet gives the same fields for each choice of coordinate axes.", "quantifier": "all meshes, boundary types, sheets and fields", "why_tests_cant": "unbounded geometry; out-of-bounds or uninitialised reads may go unnoticed", "anchors": ["src/sibc.c:initSibcSurfaces", "src/sibc.c:setSibcFace", "src/sibc.c:updateSibcSurfacesEfield", "src/sibc.c:updateSibcSurfacesHfield", "src/surface.c:isPmcEdge", "src/surface.c:parseTB"]}
{"id": "C62", "title": "The time stepping is stable under the Courant limit", "statement": "In a closed passive mesh (PEC walls, simple media, no drives) the stored electromagnetic energy never exceeds a fixed multiple of its initial value, however many steps are run, for every Courant number the CN card accepts, every mesh and every assignment of media; each step loses exactly the power dissipated in the conductivities.", "quantifier": "all meshes, media, initial fields and step counts", "why_tests_cant": "unbounded number of steps and all initial fields; an instability may show only after millions of steps", "anchors": ["src/grid.c:updateGridEfield", "src/grid.c:updateGridHfield", "src/grid.c:initGrid", "src/medium.c:initMedia", "src/simulation.c:initSimulation"]}
{"id": "C63", "title": "The auxiliary grid of a plane wave stays bounded", "statement": "The one-dimensional incident-field grid kept for each plane wave, with its absorbing end, never stores more than a fixed multiple of its initial energy once the source stops, however long the run, for every direction and box.", "quantifier": "all directions, box sizes, initial states and step counts", "why_tests_cant": "unbounded run length and real-valued directions", "anchors": ["src/planewave.c:initAuxGrid", "src/planewave.c:updateAuxGridEfield", "src/planewave.c:updateAuxGridHfield"]}
{"id": "C64", "title": "Complete runs stay inside their arrays", "statement": "Put any combination of what a mesh file can contain into one simulation - external boundaries of every type, media, dispersive blocks, impedance sheets, sources and plane waves, each from an accepted card (plane-wave boxes ordered along z) - and run it for any number of steps: no update reads or writes outside the allocated grid, PML or block arrays, and without dispersive blocks and sheets the run is exactly the run the single-feature properties speak about.", "quantifier": "all meshes, boundary assignments, accepted cards of all kinds together, drives, initial states and step counts", "why_tests_cant": "the features share the field arrays and any combination, mesh size and run length is possible", "anchors": ["src/simulation.c:run", "src/debye.c:updateDebyeBlocksEfield", "src/sibc.c:updateSibcSurfacesEfield", "src/sibc.c:updateSibcSurfacesHfield", "src/source.c", "src/planewave.c"]}
{"id": "C65", "title": "Complete simulations superpose", "statement": "A simulation is linear in its excitation, whatever the boundaries, media, dispersive blocks and impedance sheets: driving all sources and plane waves with a times one set of waveforms plus b times another gives, at every point and step, a times the first field plus b times the second; without excitation everything stays exactly zero, including the internal memory of PML, dispersive media and sheets.", "quantifier": "all meshes, media, feature combinations, pairs of excitations, real factors and step counts", "why_tests_cant": "ranges over pairs of excitation histories and real factors", "anchors": ["src/simulation.c:run", "src/debye.c:updateDebyeBlocksEfield", "src/sibc.c:updateSibcSurfacesEfield", "src/filter.c:yfRecConvStep", "src/source.c", "src/planewave.c"]}
{"id": "C66", "title": "Complete runs do not depend on the number of threads or the schedule", "statement": "A simulation with any combination of boundaries, media, dispersive blocks, impedance sheets, sources and plane waves ends in exactly the same state for every number of threads and every interleaving of their memory accesses.", "quantifier": "all meshes, feature combinations, states, step counts and thread schedules", "why_tests_cant": "schedules cannot be enumerated by testing", "anchors": ["src/simulation.c:run", "src/grid.c:updateGridEfield", "src/pml.c:updatePmlEfield", "src/mur.c", "src/planewave.c:updatePlaneWavesEfield"]}
{"id": "C67", "title": "Cards are read as written", "statement": "However the fields of a card are laid out - any blanks between them, signs, leading zeros, decimal points and exponents as in C, missing optional fields at the end - the values the program works with are the ones written, and each kind of card records (or rejects) exactly the object or setting those values describe, leaving everything else as it was.", "quantifier": "every line of text that spells a list of fields, every mesh state", "why_tests_cant": "all spellings, layouts and lengths", "anchors": ["src/block.c:parseMB", "src/surface.c:parseTB", "src/line.c:parseTW", "src/source.c:parseEX", "src/grid.c:parseDM", "doc/UserManual.tex mesh file format"]}
{"id": "C68", "title": "Every accepted mesh file runs within its arrays", "statement": "From the text of the mesh file to the end of the run: whatever file the reader accepts and the set-up completes for, neither the media set-up nor any number of time steps accesses memory outside the allocated arrays; files laid out as the user manual shows are read without undefined behaviour.", "quantifier": "every text, every Debye parameter file, initial state, excitation and step count", "why_tests_cant": "ranges over all texts and runs", "anchors": ["src/mesh.c:readMesh", "src/simulation.c:initSimulation", "src/simulation.c:run", "src/medium.c:initMedia", "src/block.c:initBlocks"]}
{"id": "C69", "title": "Every accepted mesh file is consistent", "statement": "In whatever file the reader accepts, every block, wire, surface, source, plane wave and observer lies in the mesh, has the dimension its card asks for, and refers to a medium, wire, boundary or waveform that exists; names of one kind are unambiguous; behind a GE card there is at least one source, and every observer has a reference waveform.", "quantifier": "every text", "why_tests_cant": "all texts and orders of cards", "anchors": ["src/mesh.c:readMesh", "src/mesh.c:initMesh", "src/*.c card handlers"]}
{"id": "C70", "title": "A mesh file describing a closed passive cavity gives a stable simulation", "statement": "For every mesh file the reader accepts whose outer walls are perfect conductors, with increasing mesh lines and a positive Courant number, without DEBYE media, impedance sheets and plane waves, and whose sources are soft and not (if loaded with a resistance) inside an outer wall: from the moment the sources are silent the field energy never exceeds (1+CN)/(1-CN) times its value then and no field value grows without bound, for any number of time steps. A file read up to its EN card always has complete mesh lines, from which cell sizes and a time step are obtained with a Courant number below 1.", "quantifier": "every file text, every state of the fields, any number of steps", "why_tests_cant": "every file and every state; growth may only appear after arbitrarily many steps", "anchors": ["src/mesh.c:readMesh", "src/grid.c:initGrid", "src/source.c:initSources", "src/medium.c:initMedia", "src/simulation.c:propagate"]}
{"id": "C71", "title": "Impedance and parameter files are taken as they are written", "statement": "The filters of an impedance sheet are exactly those its parameter file lists, in the documented order (residue, then pole), each in its place of the 2x2 (isotropic) or 4x4 (anisotropic) matrix; a file of any other size, or one that ends early, is refused. A boundary of the mesh gets the file its own BT card names.", "quantifier": "every text of a parameter file, every number spelling, every number of poles", "why_tests_cant": "texts and numbers are unbounded; the effect of a wrong order appears only in the run", "anchors": ["src/filter.c:yfReadPoleResidueM", "src/sibc.c:initSibcBoundary", "src/medium.c:readDebyeParameters"]}
{"id": "C72", "title": "The gnuplot rendering shows the mesh as it is", "statement": "Every accepted mesh can be rendered. The data files show each block, wire, internal surface, outer face, source and mesh line as the edges of its box, nothing more and nothing less, each observer as its sampled nodes, each source with an arrow along its field from face to face, each plane wave as its box with arrows along its directions of propagation, electric and magnetic field from the corner it reaches first, at the positions of the mesh lines (or their numbers), and the script plots the files of the kinds of object the mesh has.", "quantifier": "every mesh size, spacing, list of objects, both units", "why_tests_cant": "all meshes; pictures are checked by eye if at all", "anchors": ["src/gnuplot.c:gnuplotMesh", "src/gnuplot.c:gnuplotBoundingBox", "src/gnuplot.c:gnuplotBoundingBoxArrow", "src/gnuplot.c:gnuplotScript", "src/grid.c:gnuplotGridLines", "src/observer.c:gnuplotObservers", "src/source.c:gnuplotSources"]}
{"id": "C73", "title": "The media dump shows the medium of every edge", "statement": "The text files written with the dump option show, for each field component, every point of the grid at a fixed line and column: free space as a dot, perfect conductor as a star, any other medium as an o, the medium being the one last painted over that point by the mesh file.", "quantifier": "every mesh size, accepted scene, field component and grid point", "why_tests_cant": "all meshes and scenes", "anchors": ["src/grid.c:dumpMediaOnGrid", "src/grid.c:decodeAlphaBeta", "src/grid.c:decodeGamma", "src/vulture.c:main"]}
{"id": "C74", "title": "The binary output can be read back with the help of process.dat", "statement": "process.dat announces the number of TDOM_BINARY observers and their regions and strides as on the OP cards, in the order of the mesh file, the recorded time steps, the output frequencies and (on a cubic mesh) the cell size; the record of every node of every region at every recorded step is in impulse.dat at the place that follows from these announcements, with the indices of the node and the six fields there at that step.", "quantifier": "every accepted set of OP, OT, OF and CN cards, mesh, run length, fields", "why_tests_cant": "all regions, strides, windows and run lengths", "anchors": ["src/observer.c:writeProcessDat", "src/observer.c:initImpulseDat", "src/observer.c:updateImpulseDat", "doc/UserManual/UserManual.tex post-processing of binary output"]}
{"id": "C75", "title": "The run solves the discretised Maxwell equations of the mesh file", "statement": "For every accepted mesh file with SIMPLE media, wires, conductors, soft sources and lumped loads, the fields computed from rest by the complete time loop satisfy at every step Ampere's and Faraday's laws in finite difference form, on the mesh lines of the file, with the material that the last card covering a point gives it, zero E in conductors and on PEC walls, and the impressed currents and fields of the EX cards, as the units of each source quantity say; in a conducting box nothing else satisfies these equations, and what ASCII observers write is this solution, or its Fourier transform.", "quantifier": "every accepted mesh file of the class, all mesh sizes and line spacings, waveforms, numbers of steps and observation nodes", "why_tests_cant": "all files and all step counts", "anchors": ["src/vulture.c:main", "src/mesh.c:readMesh", "src/grid.c:updateGridEfield", "src/grid.c:updateGridHfield", "src/medium.c:calcCoeffFromParam", "src/source.c:initSources", "src/source.c:updateSourcesEfield", "src/observer.c:updateObservers", "src/grid.c:initCellEdges"]}
{"id": "C76", "title": "Reciprocity: transmitter and receiver can be exchanged", "statement": "For two accepted mesh files that describe the same closed conducting box and scene (SIMPLE media, wires, conductors, lumped loads) and differ in their soft current sources, the reaction of the fields of one run on the currents of the other, as a convolution over the time steps, is symmetric up to every step; in particular, with a single driven current source or loaded port on one edge in one file and on another edge in the other, driven with the same waveform, each run records at the other's edge the same E history per unit of impressed moment.", "quantifier": "all pairs of accepted mesh files of the class with the same scene, all source positions and polarisations, waveforms and step counts", "why_tests_cant": "all pairs of files, positions and step counts", "anchors": ["src/vulture.c:main", "src/mesh.c:readMesh", "src/grid.c:updateGridEfield", "src/grid.c:updateGridHfield", "src/grid.c:initCellEdges", "src/source.c:initSources", "src/source.c:updateSourcesEfield", "src/medium.c:calcCoeffFromParam"]}
{"id": "C77", "title": "Charge and magnetic flux are balanced", "statement": "In every run of an accepted mesh file with SIMPLE media and any walls: the electric flux out of the secondary cell around a node inside the mesh changes in each time step exactly by what the conduction current and the impressed currents carry away, so that no charge ever appears at a node without loss and sources around it; and the magnetic flux out of every cell of the mesh changes only by impressed magnetic currents and stays zero without them, whatever media and conductors the cell touches.", "quantifier": "every accepted mesh file of the class, every inner node and every cell, all waveforms and step counts", "why_tests_cant": "all files, nodes and step counts", "anchors": ["src/vulture.c:main", "src/grid.c:updateGridEfield", "src/grid.c:updateGridHfield", "src/grid.c:initCellEdges", "src/source.c:updateSourcesEfield", "src/source.c:updateSourcesHfield", "src/medium.c:calcCoeffFromParam"]}
{"id": "C78", "title": "Delaying every excitation delays the response and changes nothing else", "statement": "In every simulation started from rest, whatever boundaries, media, dispersive blocks, impedance sheets, sources and plane waves it has: if every waveform and incident field comes k time steps later (and is zero before), all fields stay zero for k steps and are then, value by value, those of the original run k steps earlier, and so is every internal memory of media, sheets and absorbing layers. The delay of a source card does this for compact and ramped waveforms (Gaussian ones are not zero before time 0).", "quantifier": "all configurations, scenes, excitations, delays and step counts", "why_tests_cant": "all configurations, excitations and step counts", "anchors": ["src/simulation.c:propagate", "src/waveform.c:getWaveformValue", "src/source.c:updateSourcesEfield", "src/planewave.c:updatePlaneWavesEfield", "src/debye.c", "src/sibc.c", "src/pml.c"]}
{"id": "C79", "title": "Progress reports are sparse and the predicted end is consistent with the speed seen", "statement": "Whatever the clock does between the time steps (as long as it does not go back), the progress timer never divides by zero; reports come at least ten seconds apart; every predicted end lies between the time the run would end if all remaining steps were as fast as the fastest, and as slow as the slowest, stretch seen so far; on a machine of steady speed the prediction is exact and is printed once. The number of cells in the closing report is the number of cells of the grid.", "quantifier": "all clock histories, numbers of steps and points of the run", "why_tests_cant": "the wall clock is not under a test's control and the property ranges over all its histories", "anchors": ["src/timer.c:startTimer", "src/timer.c:updateTimer", "src/timer.c:stopTimer", "src/timer.c:timeFilter", "src/simulation.c:propagate"]}
{"id": "C80", "title": "Symmetry and periodic walls neither absorb nor create energy, and stay stable", "statement": "In a mesh whose outer faces are PEC, PMC or periodic in any mixture: without losses the stored energy (counting at a face only what lies inside the mesh) is the same after every step; with lossy media each step loses exactly the power dissipated in the conductivities; and for every Courant number the CN card accepts the energy never exceeds a fixed multiple of its initial value and every field value stays bounded, however many steps are run.", "quantifier": "all mesh sizes, line positions, mixtures of the three wall types, media, scenes, initial fields fitting the walls and step counts", "why_tests_cant": "unbounded number of steps, all initial fields and all wall mixtures; a wrong sign or index in a ghost cell may feed in energy so slowly that it shows only after very many steps", "anchors": ["src/surface.c:updateGhostEfield", "src/surface.c:updateGhostHfield", "src/grid.c:updateGridEfield", "src/grid.c:updateGridHfield", "src/grid.c:initGrid"]}
{"id": "C81", "title": "Turning the problem in space turns the result", "statement": "For two accepted mesh files whose outer walls are PEC, PMC or PERIODIC in any mixture, the second describing the first one turned in space (x to y, y to z, z to x: wall types, mesh lines, blocks with their masks, wires, surfaces and sources of every kind at the turned places and directions), driven with the same waveforms: the two runs use the same time step, and after every number of steps each E and H value of the second run equals the value of the first run at the point and component it was turned from. No direction is treated specially.", "quantifier": "all pairs of accepted mesh files of the class, all line positions, scenes, source kinds, waveforms, points and step counts", "why_tests_cant": "all pairs of files, points and step counts; the code spells every update, coefficient and source out separately for each of the three axes, so one mistyped index in one of them breaks the property only for some scenes", "anchors": ["src/mesh.c:readMesh", "src/grid.c:initCellEdges", "src/grid.c:updateGridEfield", "src/grid.c:updateGridHfield", "src/source.c:initSources", "src/source.c:updateSourcesEfield", "src/source.c:updateSourcesHfield", "src/block.c:initBlocks", "src/line.c:initLines", "src/grid.c:setMediumOnGrid"]}
{"id": "C82", "title": "The mirror image of the problem has the mirror image of the result", "statement": "For two accepted mesh files whose outer walls are PEC, PMC or PERIODIC in any mixture, the second describing the mirror image of the first across x (the two x walls exchanged, mesh lines in reverse order, objects at their images, amplitudes negated where the component changes sign: electric sources along x and magnetic sources across x), driven with the same waveforms: same time step, and after every number of steps each value of the second run is that of the first run at the mirrored point, with E mirrored as a vector and H as an axial vector. A problem that is its own mirror image has symmetric fields.", "quantifier": "all pairs of accepted mesh files of the class, all line positions, scenes, source kinds, waveforms, points and step counts", "why_tests_cant": "all pairs of files, points and step counts; forward and backward differences, cell edges at the two ends of the mesh and lower and upper faces are handled by different code", "anchors": ["src/mesh.c:readMesh", "src/grid.c:initCellEdges", "src/grid.c:updateGridEfield", "src/grid.c:updateGridHfield", "src/source.c:initSources", "src/block.c:initBlocks", "src/line.c:initLines", "src/grid.c:setMediumOnGrid", "src/bounding_box.c"]}
{"id": "C83", "title": "A box with electric, magnetic and periodic walls is solved as the discretised Maxwell equations", "statement": "For an accepted mesh file whose six outer walls are PEC, PMC or PERIODIC (any mixture), with simple media, metal and soft or lumped sources: after every number of steps the run from rest solves Ampere's and Faraday's laws at every edge and face of the mesh, wall edges included, where the tangential magnetic field just beyond a PMC wall is minus its mirror image and just beyond a periodic wall the value at the opposite wall; E is zero on metal and PEC walls; and these equations have no other solution.", "quantifier": "all accepted mesh files of the class, all wall mixtures, line positions, scenes, waveforms, points and step counts", "why_tests_cant": "all files, wall combinations, points and step counts; corners and edges of the box involve two walls at once", "anchors": ["src/mesh.c:readMesh", "src/surface.c:updateGhostEfield", "src/surface.c:updateGhostHfield", "src/grid.c:updateGridEfield", "src/grid.c:updateGridHfield", "src/grid.c:initCellEdges", "src/medium.c:calcCoeffFromParam", "src/source.c:updateSourcesEfield"]}
{"id": "C84", "title": "Half of a symmetric problem with a PMC or PEC wall gives half of the result", "statement": "Take an accepted mesh file with a PMC (or PEC) wall at its lower x face, and a second accepted file with twice as many cells along x describing the problem together with its mirror image in that wall (mirrored mesh lines, the same materials at every point and its image, every point driven as in the half problem and its image driven with the sign a magnetic - for PEC an electric - mirror gives). Then both have the same time step and after every number of steps from rest every field value of the half problem is the value of the full problem at that point, and the full problem has the image value at the mirrored point.", "quantifier": "all pairs of accepted mesh files of the class (other walls any mixture of PEC, PMC, periodic), line positions, scenes, waveforms, points and step counts", "why_tests_cant": "all pairs of files, points and step counts; in the code the wall is ghost cells or metal, the plane of the full problem is ordinary mesh", "anchors": ["src/surface.c:updateGhostHfield", "src/surface.c:initExternalSurfaces", "src/grid.c:updateGridEfield", "src/grid.c:updateGridHfield", "src/grid.c:initCellEdges", "src/source.c:updateSourcesEfield", "src/mesh.c:readMesh"]}
{"id": "C85", "title": "Moving a periodic problem round its period moves the result", "statement": "For two accepted mesh files, periodic along x with equal cells along x (other walls PEC, PMC or periodic), the second describing the first moved by any whole number of cells round the period - what leaves at one periodic wall enters at the other; materials and drive equal at every point and the point it is moved to, both walls counting as one place: the two runs use the same time step, and after every number of steps from rest each E and H value of the second run equals the value of the first run at the point it was moved from. In particular (no move) the fields in the two periodic walls agree. The position of the periodic wall has no effect.", "quantifier": "all pairs of accepted mesh files of the class, all shifts, scenes, waveforms, points and step counts", "why_tests_cant": "all pairs of files, shifts, points and step counts; values in the periodic walls come through ghost cells, all others from ordinary mesh", "anchors": ["src/surface.c:updateGhostHfield", "src/surface.c:initExternalSurfaces", "src/grid.c:updateGridEfield", "src/grid.c:updateGridHfield", "src/grid.c:initCellEdges", "src/source.c:updateSourcesEfield", "src/mesh.c:readMesh"]}
{"id": "C86", "title": "Everything the program opens or allocates is used only while it is there and is given back once at the end", "statement": "For every complete mesh file the program accepts, from start-up through any number of time steps to the end of the program: nothing is allocated over something still held, nothing is used before it is made or after it is released, nothing is released twice. Frequency-domain results are written while the transform of their reference waveform is still there. At the end every file - log, one output file per ASCII observer, excite.dat and impulse.dat of the binary observers - has been closed exactly once, and everything allocated has been released.", "quantifier": "all accepted mesh files (any numbers and kinds of media, wires, blocks, lines, surfaces, boundaries, waveforms, sources, plane waves and observers), both kinds of plane-wave set-up and all step counts", "why_tests_cant": "the order of releases matters only for particular combinations of items, and a use after release usually goes unnoticed in a test", "anchors": ["src/vulture.c:main", "src/observer.c:deallocObservers", "src/observer.c:initObservers", "src/planewave.c:deallocPlaneWaves", "src/waveform.c:deallocWaveforms", "src/surface.c:deallocExternalSurfaces", "src/surface.c:deallocInternalSurfaces", "src/boundary.c:deallocBoundaries", "src/block.c:deallocBlocks", "src/debye.c:deallocDebyeBlocks", "src/medium.c:deallocMedia", "src/grid.c:deallocGridArrays", "src/sibc.c:deallocSibcSurfaces", "src/pml.c:deallocPmlArrays", "src/wire.c:deallocWires"]}
{"id": "C87", "title": "No warning or error is hidden, and the exit status tells whether the run failed", "statement": "For every accepted command line of vulture and of gvulture and every mesh, whatever the parts of the program have to say: the log file holds its title and then, in the order in which they were sent, every message of the parts of the program the options ask for, up to and including the first error - with the verbose option all of them, otherwise the log, warning and error messages. Standard error holds exactly the warnings and the error, each with the program's name, with or without the verbose option. A message that carries a system error number is followed by the system's description of it. The exit status is 6 when an error was sent and nothing is done after it, 0 otherwise; a run whose log file cannot be created says so and ends with status 1, and a command line that is turned down leaves no log file.", "quantifier": "all command lines, all sequences of messages of all severities and error numbers in all parts of the program", "why_tests_cant": "whether a message is shown depends on its severity, the options and every message before it; tests see a few sequences", "anchors": ["src/message.c:message", "src/message.c:startMessaging", "src/message.h", "src/vulture.c:main", "src/gvulture.c:main"]}
{"id": "C88", "title": "The memory report gives what the arrays take", "statement": "For every accepted mesh size and choice of boundaries, either way of storing the media and any numbers of media, frequencies and frequency-domain observers, as long as the arrays together fit into the address space: each line of the memory report in the log is the number of bytes the arrays of that kind take, row pointers included - the mesh lines and cell lengths, the six field arrays, the coefficient arrays, the PML arrays of every absorbing side, the PML coefficients, the media and the observers.", "quantifier": "all accepted mesh sizes, boundaries, element sizes and counts", "why_tests_cant": "the report is a sum over arrays whose sizes depend on every dimension of the problem; tests look at a few", "anchors": ["src/memory.c:reportMemory", "src/alloc_array.c:allocArray", "src/grid.c:allocGridArrays", "src/pml.c:allocPmlArrays", "src/observer.c:initObserverDft", "src/observer.c:initObservers", "src/medium.c:initMedia"]}
