-Q theories Verif
theories/Model/Base.v
theories/Model/Boundary.v
theories/Model/Layout.v
theories/Model/Access.v
theories/Model/Setup.v
theories/Spec/Box.v
theories/Spec/Fold.v
theories/Spec/Access.v
theories/Spec/Decomp.v
theories/Proof/BaseL.v
theories/Proof/LayoutL.v
theories/Proof/AccessL.v
theories/Proof/SetupL.v
theories/Props/Indexing.v
theories/Props/Decomposition.v
theories/Model/Codec.v
theories/Model/Region.v
theories/Spec/Bytes.v
theories/Proof/CodecL.v
theories/Proof/RegionL.v
theories/Proof/SerialL.v
theories/Props/Serialisation.v
theories/Model/MPI.v
theories/Spec/Schedule.v
theories/Proof/MPIL.v
theories/Model/Ghostswap.v
theories/Proof/GhostL.v
theories/Proof/HaloL.v
theories/Proof/ExecL.v
theories/Props/Ghost.v
theories/Model/Colour.v
theories/Proof/ColourL.v
theories/Props/Sublattice.v
theories/Model/Num.v
theories/Model/Sparse.v
theories/Spec/Sparse.v
theories/Proof/SparseL.v
theories/Proof/SparseF.v
theories/Props/Sparse.v
theories/Model/Vector.v
theories/Proof/VectorL.v
theories/Spec/Vector.v
theories/Proof/VectorF.v
theories/Props/Vector.v
theories/Model/Gridobj.v
theories/Spec/Gridobj.v
theories/Proof/GridobjL.v
theories/Props/Gridobj.v
theories/Model/Global.v
theories/Spec/Reduce.v
theories/Proof/GlobalL.v
theories/Props/Global.v
theories/Model/Text.v
theories/Model/File.v
theories/Proof/TextL.v
theories/Spec/File.v
theories/Proof/FileL.v
theories/Proof/CheckpointL.v
theories/Proof/WriteL.v
theories/Proof/RestartL.v
theories/Proof/RestartF.v
theories/Props/File.v
theories/Model/Gpfs.v
theories/Proof/GpfsL.v
theories/Props/Gpfs.v
theories/Model/Driver.v
theories/Spec/Driver.v
theories/Proof/DriverL.v
theories/Proof/NamesL.v
theories/Props/Driver.v
theories/Model/Stencil.v
theories/Spec/Stencil.v
theories/Proof/StencilL.v
theories/Proof/StencilS.v
theories/Proof/StencilQ.v
theories/Proof/StencilM.v
theories/Props/Stencil.v
theories/Model/Simulate.v
theories/Proof/SimulateL.v
theories/Props/Simulate.v
theories/Model/Tessellate.v
theories/Spec/Tessellate.v
theories/Proof/TessellateL.v
theories/Proof/TessellateF.v
theories/Props/Tessellate.v
theories/Model/FastMarch.v
theories/Proof/FastMarchL.v
theories/Props/FastMarch.v
theories/Model/Grainsize.v
theories/Spec/Grainsize.v
theories/Proof/GrainsizeL.v
theories/Proof/GrainsizeF.v
theories/Props/Grainsize.v
theories/Model/Evolve.v
theories/Spec/Evolve.v
theories/Proof/EvolveL.v
theories/Proof/EvolveF.v
theories/Props/Evolve.v
theories/Model/Topology.v
theories/Spec/Topology.v
theories/Proof/TopologyL.v
theories/Proof/TopologyF.v
theories/Props/Topology.v
theories/Model/Endian.v
theories/Spec/Endian.v
theories/Proof/EndianL.v
theories/Proof/EndianF.v
theories/Props/Endian.v
theories/Model/Convert.v
theories/Spec/Convert.v
theories/Proof/ConvertL.v
theories/Proof/ConvertF.v
theories/Props/Convert.v
theories/Model/Spin.v
theories/Spec/Spin.v
theories/Proof/SpinL.v
theories/Proof/SpinF.v
theories/Proof/GrowthL.v
theories/Proof/GrowthF.v
theories/Props/Spin.v
theories/Model/Progress.v
theories/Proof/ProgressL.v
theories/Props/Progress.v
theories/Model/Mmsp2z.v
theories/Spec/Mmsp2z.v
theories/Proof/Mmsp2zL.v
theories/Props/Mmsp2z.v
theories/Model/Image.v
theories/Spec/Image.v
theories/Proof/ImageL.v
theories/Proof/ImageF.v
theories/Props/Image.v
theories/Model/Random.v
theories/Spec/Random.v
theories/Proof/RandomL.v
theories/Proof/RandomF.v
theories/Proof/RandomA.v
theories/Props/Random.v
theories/Proof/CentroidL.v
theories/Model/Dynamics.v
theories/Spec/Dynamics.v
theories/Proof/DynamicsL.v
theories/Proof/DynamicsF.v
theories/Proof/DynamicsB.v
theories/Proof/MultiphaseL.v
theories/Proof/SolidifyL.v
theories/Proof/SolidifyU.v
theories/Model/Zener.v
theories/Spec/Zener.v
theories/Proof/ZenerL.v
theories/Props/Dynamics.v
theories/Model/Types.v
theories/Model/Vtk.v
theories/Model/Table.v
theories/Spec/Types.v
theories/Spec/Table.v
theories/Proof/TypesL.v
theories/Proof/TableL.v
theories/Proof/TableF.v
theories/Props/Types.v
theories/Props/Table.v
theories/Model/Pvd.v
theories/Spec/Pvd.v
theories/Proof/PvdL.v
theories/Props/Pvd.v
theories/Model/Topo.v
theories/Spec/Topo.v
theories/Spec/TopoRest.v
theories/Proof/TopoL.v
theories/Proof/TopoF.v
theories/Proof/TopoA.v
theories/Proof/TopoT.v
theories/Props/Topo.v
theories/Model/Split.v
theories/Spec/Split.v
theories/Proof/SplitL.v
theories/Proof/SplitP.v
theories/Proof/SplitE.v
theories/Proof/SplitR.v
theories/Proof/SplitU.v
theories/Props/Split.v
theories/Model/Multigrid.v
theories/Spec/Multigrid.v
theories/Proof/MultigridL.v
theories/Proof/MultigridS.v
theories/Proof/MultigridG.v
theories/Proof/MultigridC.v
theories/Proof/MultigridF.v
theories/Proof/MultigridR.v
theories/Proof/MultigridD.v
theories/Props/Multigrid.v
theories/Model/Anisotropy.v
theories/Model/Heisenberg.v
theories/Spec/Anisotropy.v
theories/Spec/Heisenberg.v
theories/Proof/AnisotropyL.v
theories/Proof/SiteL.v
theories/Proof/HeisL.v
theories/Props/Anisotropy.v
theories/Props/Heisenberg.v
theories/Model/AnisoSparse.v
theories/Spec/AnisoSparse.v
theories/Proof/AnisoSparseL.v
theories/Proof/AnisoSparseF.v
theories/Proof/AnisoSparseG.v
theories/Proof/GrowL.v
theories/Props/AnisoSparse.v
theories/Model/Gradient.v
theories/Proof/GradientL.v
theories/Props/Gradient.v
theories/Model/Generate.v
theories/Spec/Generate.v
theories/Proof/GenerateL.v
theories/Props/Generate.v
theories/Props/Start.v
theories/Model/Digits.v
theories/Spec/Digits.v
theories/Proof/DigitsL.v
theories/Props/Digits.v
theories/Model/Couple.v
theories/Spec/Couple.v
theories/Proof/CoupleL.v
theories/Props/Couple.v
theories/Proof/SheetL.v
theories/Proof/SheetM.v
theories/Props/Sheet.v
theories/Model/Generators.v
theories/Spec/Generators.v
theories/Proof/HeapL.v
theories/Proof/GeneratorsL.v
theories/Proof/GeneratorsM.v
theories/Proof/GeneratorsF.v
theories/Props/Generators.v
theories/Model/Seedswap.v
theories/Spec/Seedswap.v
theories/Proof/SeedswapL.v
theories/Proof/SeedfileL.v
theories/Proof/HoneycombL.v
theories/Props/Seedswap.v
theories/Model/Jobs.v
theories/Spec/Jobs.v
theories/Proof/JobsL.v
theories/Props/Jobs.v
theories/Model/Stages.v
theories/Spec/Stages.v
theories/Proof/StagesL.v
theories/Proof/TotalL.v
theories/Props/Stages.v
theories/Model/McRanks.v
theories/Spec/McRanks.v
theories/Proof/McRanksL.v
theories/Proof/McRanksF.v
theories/Props/McRanks.v
theories/Model/SpinRanks.v
theories/Spec/SpinRanks.v
theories/Proof/SpinRanksL.v
theories/Proof/SpinRanksF.v
theories/Proof/SpinRanksT.v
theories/Props/SpinRanks.v
theories/Model/Program.v
theories/Spec/Program.v
theories/Proof/ProgramL.v
theories/Proof/ProgramF.v
theories/Proof/ProgramN.v
theories/Proof/ProgramT.v
theories/Proof/ProgramU.v
theories/Props/Program.v
theories/Model/SplitRanks.v
theories/Proof/SplitRL.v
theories/Proof/SplitRM.v
theories/Props/SplitRanks.v
theories/Model/SolidRanks.v
theories/Proof/SolidRL.v
theories/Props/SolidRanks.v
theories/Model/Runs.v
theories/Spec/Runs.v
theories/Proof/RunsL.v
theories/Props/Runs.v
theories/Model/Options.v
theories/Spec/Options.v
theories/Proof/OptionsL.v
theories/Props/Options.v
theories/Model/Starts.v
theories/Spec/Starts.v
theories/Proof/StartsL.v
theories/Proof/StartsF.v
theories/Proof/StartsS.v
theories/Proof/StartsP.v
theories/Props/Starts.v
theories/Model/Tools.v
theories/Spec/Tools.v
theories/Proof/ToolsL.v
theories/Props/Tools.v
theories/Model/McRuns.v
theories/Spec/McRuns.v
theories/Proof/McRunsL.v
theories/Props/McRuns.v
theories/Model/SerialRun.v
theories/Spec/Mixed.v
theories/Proof/MixedL.v
theories/Props/Mixed.v
theories/Proof/OpensL.v
theories/Props/Opens.v
theories/Spec/Moved.v
theories/Proof/MovedL.v
theories/Props/Moved.v
theories/Model/Report.v
theories/Spec/Report.v
theories/Proof/ReportL.v
theories/Props/Report.v
theories/Props/Direction.v
theories/Spec/Cut.v
theories/Proof/CutL.v
theories/Proof/CutF.v
theories/Props/Cut.v
theories/Model/Vti2pvd.v
theories/Spec/Vti2pvd.v
theories/Proof/Vti2pvdL.v
theories/Props/Vti2pvd.v
theories/Model/Filters.v
theories/Spec/Filters.v
theories/Props/Filters.v
theories/Spec/Decimal.v
theories/Proof/DecimalL.v
theories/Props/Decimal.v
theories/Spec/Format.v
theories/Proof/FormatL.v
theories/Props/Format.v
theories/Spec/Kinds.v
theories/Proof/KindsL.v
theories/Props/Kinds.v
theories/Spec/Euler.v
theories/Proof/EulerL.v
theories/Props/Euler.v
