-Q theories Verif

theories/Lib/BoxMin.v
theories/Lib/Cexp.v
theories/Lib/Dft.v
theories/Lib/Elim.v
theories/Lib/Idx.v
theories/Lib/Limits.v
theories/Lib/Mat.v
theories/Lib/Num.v
theories/Lib/RealF.v
theories/Lib/Sums.v
theories/Model/Alias.v
theories/Model/Beam.v
theories/Model/Bloch.v
theories/Model/BlochOverlap.v
theories/Model/BlochSolve.v
theories/Model/Cyl.v
theories/Model/CylReal.v
theories/Model/Dtype.v
theories/Model/DtypeArgs.v
theories/Model/DtypePml.v
theories/Model/Eigensolvers.v
theories/Model/Eme.v
theories/Model/Farfield.v
theories/Model/Fdfd.v
theories/Model/Fdmath.v
theories/Model/Fdtd.v
theories/Model/FdtdReal.v
theories/Model/Ndarray.v
theories/Model/Pml.v
theories/Model/Scpml.v
theories/Model/Trapezoid.v
theories/Model/Waveguide2d.v
theories/Model/Waveguide3d.v
theories/Model/WaveguideReal.v
theories/Proofs/AbsorbP.v
theories/Proofs/AliasP.v
theories/Proofs/BandSlopeP.v
theories/Proofs/BeamP.v
theories/Proofs/BlochBandP.v
theories/Proofs/BlochOverlapP.v
theories/Proofs/BlochP.v
theories/Proofs/BlochP2.v
theories/Proofs/BlochP3.v
theories/Proofs/BlochSolveP.v
theories/Proofs/BlochSolveP2.v
theories/Proofs/BlochStartP.v
theories/Proofs/BoundaryP.v
theories/Proofs/CflP.v
theories/Proofs/CfsLimitP.v
theories/Proofs/ComplexModeP.v
theories/Proofs/CpmlHarmP.v
theories/Proofs/CpmlHarmP2.v
theories/Proofs/CpmlLinP.v
theories/Proofs/CpmlRealP.v
theories/Proofs/CpmlRecipP.v
theories/Proofs/CurlFreeP.v
theories/Proofs/CylP.v
theories/Proofs/DispersionP.v
theories/Proofs/DispersionP2.v
theories/Proofs/DivFreeP.v
theories/Proofs/DrivenP.v
theories/Proofs/DtypeP.v
theories/Proofs/DtypePmlP.v
theories/Proofs/DualP.v
theories/Proofs/EigensolversP.v
theories/Proofs/EmeP.v
theories/Proofs/EmeP2.v
theories/Proofs/FarP.v
theories/Proofs/FarP2.v
theories/Proofs/FarP3.v
theories/Proofs/FarP4.v
theories/Proofs/FdfdP.v
theories/Proofs/FdfdP2.v
theories/Proofs/FdfdP3.v
theories/Proofs/FdmathP.v
theories/Proofs/FdmathP2.v
theories/Proofs/FdtdConvP.v
theories/Proofs/FdtdConvP2.v
theories/Proofs/FdtdP.v
theories/Proofs/FdtdP2.v
theories/Proofs/FdtdRealP.v
theories/Proofs/ForcedP.v
theories/Proofs/GridP.v
theories/Proofs/HarmonicP.v
theories/Proofs/HarmonicP2.v
theories/Proofs/HarmonicP3.v
theories/Proofs/HarmonicP4.v
theories/Proofs/HermEigP.v
theories/Proofs/LossyP.v
theories/Proofs/MinMaxP.v
theories/Proofs/MinMaxP2.v
theories/Proofs/MinMaxP3.v
theories/Proofs/ModeFluxP.v
theories/Proofs/ModeRealP.v
theories/Proofs/ModesP.v
theories/Proofs/ModesP2.v
theories/Proofs/ModesP3.v
theories/Proofs/NdarrayP.v
theories/Proofs/NonuniformFdtdP.v
theories/Proofs/NonuniformP.v
theories/Proofs/NumDispP.v
theories/Proofs/PmlP.v
theories/Proofs/PotentialP.v
theories/Proofs/PowerHermP.v
theories/Proofs/PowerP.v
theories/Proofs/ResonanceP.v
theories/Proofs/ScpmlP.v
theories/Proofs/Sens21.v
theories/Proofs/SensP.v
theories/Proofs/SensRealP.v
theories/Proofs/SlabModesP.v
theories/Proofs/SpectralP.v
theories/Proofs/StretchP.v
theories/Proofs/SymmetryP.v
theories/Proofs/SymmetryP2.v
theories/Proofs/TaylorP.v
theories/Proofs/TimeRecipP.v
theories/Proofs/TrapezoidP.v
theories/Proofs/UnitsP.v
theories/Proofs/WaveguideP.v
theories/Proofs/WaveguideP2.v
theories/Proofs/WaveguideP3.v
theories/Proofs/WaveguideP4.v
theories/Proofs/WaveguideRealP.v
theories/Proofs/WaveguideRealP2.v
theories/Proofs/Wg3dP.v
theories/Proofs/Wg3dRealP.v
theories/Proofs/WindowP.v
theories/Props/AliasProps.v
theories/Props/ArrayArgsProps.v
theories/Props/BandSlopeProps.v
theories/Props/BandsProps.v
theories/Props/BeamProps.v
theories/Props/BlochBandProps.v
theories/Props/BlochLogProps.v
theories/Props/BlochOverlapProps.v
theories/Props/BlochProps.v
theories/Props/BlochSolveProps.v
theories/Props/BlochStartProps.v
theories/Props/ComplexModeProps.v
theories/Props/ConvergeProps.v
theories/Props/ConvergenceProps.v
theories/Props/CpmlFourierProps.v
theories/Props/CpmlHarmonicProps.v
theories/Props/CpmlLinProps.v
theories/Props/CpmlProps.v
theories/Props/CpmlRecipProps.v
theories/Props/CurlFreeProps.v
theories/Props/CylProps.v
theories/Props/CylRealProps.v
theories/Props/DispersionProps.v
theories/Props/DivFreeProps.v
theories/Props/DrivenProps.v
theories/Props/DtypePmlProps.v
theories/Props/DtypeProps.v
theories/Props/DualProps.v
theories/Props/EigenProps.v
theories/Props/EmeProps.v
theories/Props/EmeProps2.v
theories/Props/FarProps.v
theories/Props/FarProps2.v
theories/Props/FarProps3.v
theories/Props/FdfdProps.v
theories/Props/FdmathProps.v
theories/Props/FdtdConvProps.v
theories/Props/FdtdProps.v
theories/Props/FdtdRealProps.v
theories/Props/ForcedProps.v
theories/Props/FourierProps.v
theories/Props/HarmonicProps.v
theories/Props/HermEigProps.v
theories/Props/MeanProps.v
theories/Props/MeanProps2.v
theories/Props/ModeProps.v
theories/Props/ModesProps.v
theories/Props/NonuniformFdtdProps.v
theories/Props/NonuniformProps.v
theories/Props/NumDispProps.v
theories/Props/PeriodicProps.v
theories/Props/RqiProps.v
theories/Props/ScpmlProps.v
theories/Props/SensProps.v
theories/Props/SlabModesProps.v
theories/Props/SolvableProps.v
theories/Props/SpectrumProps.v
theories/Props/StretchProps.v
theories/Props/SymmetryProps.v
theories/Props/TimeReciprocityProps.v
theories/Props/TrapezoidProps.v
theories/Props/WaveguideProps.v
theories/Props/WaveguideRealProps.v
theories/Props/Wg3dProps.v
theories/Props/Wg3dProps2.v
theories/Props/WindowProps.v
theories/Spec/AbsorbSpec.v
theories/Spec/AliasSpec.v
theories/Spec/BandsSpec.v
theories/Spec/BeamSpec.v
theories/Spec/BlochBandSpec.v
theories/Spec/BlochSolveSpec.v
theories/Spec/BlochSpec.v
theories/Spec/BlochStartSpec.v
theories/Spec/CpmlHarmonicSpec.v
theories/Spec/CpmlRecipSpec.v
theories/Spec/CpmlSpec.v
theories/Spec/CylSpec.v
theories/Spec/DispersionSpec.v
theories/Spec/DtypeSpec.v
theories/Spec/DualSpec.v
theories/Spec/EigenSpec.v
theories/Spec/EmeSpec.v
theories/Spec/FarSpec.v
theories/Spec/FdfdSpec.v
theories/Spec/FdtdRun.v
theories/Spec/ForcedSpec.v
theories/Spec/Grid.v
theories/Spec/HarmonicSpec.v
theories/Spec/ModeSpec.v
theories/Spec/ModesSpec.v
theories/Spec/NonuniformSpec.v
theories/Spec/NormSpec.v
theories/Spec/PulseSpec.v
theories/Spec/ScpmlSpec.v
theories/Spec/SensSpec.v
theories/Spec/SmoothSpec.v
theories/Spec/SolvableSpec.v
theories/Spec/StretchSpec.v
theories/Spec/SymmetrySpec.v
theories/Spec/TrapezoidSpec.v
theories/Spec/WaveguideSpec.v
theories/Spec/Wg3dSpec.v
theories/Spec/WindowSpec.v
theories/Spec/Yee.v
