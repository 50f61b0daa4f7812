-Q theories Verif
theories/Binning/Fast.v
theories/Binning/Model.v
theories/Binning/Proofs.v
theories/Binning/Props.v
theories/Binning/Spec.v
theories/Binning/Text.v
theories/Binning/Trees.v
theories/Chain/Fill.v
theories/Chain/Kinematics.v
theories/Chain/Layout.v
theories/Chain/Main.v
theories/Chain/Model.v
theories/Chain/Propose.v
theories/Chain/Props.v
theories/Chain/Spec.v
theories/Chi2/Model.v
theories/Chi2/Proofs.v
theories/Chi2/Props.v
theories/Chi2/Spec.v
theories/Coherent/Model.v
theories/Coherent/Proofs.v
theories/Coherent/Props.v
theories/Coherent/Real.v
theories/Coherent/Spec.v
theories/Common/Prelude.v
theories/Common/Writes.v
theories/Conjugate/Model.v
theories/Conjugate/Proofs.v
theories/Conjugate/Props.v
theories/Conjugate/Spec.v
theories/Containers/Model.v
theories/Containers/Proofs.v
theories/Containers/Props.v
theories/Containers/Spec.v
theories/Couplings/Model.v
theories/Couplings/Proofs.v
theories/Couplings/Props.v
theories/Couplings/Spec.v
theories/Dalitz/Model.v
theories/Dalitz/Proofs.v
theories/Dalitz/Props.v
theories/Dalitz/Spec.v
theories/Descriptor/Model.v
theories/Descriptor/Proofs.v
theories/Descriptor/Props.v
theories/Descriptor/Spec.v
theories/Discrete/Model.v
theories/Discrete/Proofs.v
theories/Discrete/Props.v
theories/Discrete/Spec.v
theories/Enum/Model.v
theories/Enum/Proofs.v
theories/Enum/Props.v
theories/Enum/Spec.v
theories/Errors/Combine.v
theories/Errors/Merge.v
theories/Errors/Model.v
theories/Errors/Proofs.v
theories/Errors/Props.v
theories/Errors/Spec.v
theories/Errors/Sums.v
theories/Evaluators/Model.v
theories/Evaluators/Proofs.v
theories/Evaluators/Props.v
theories/Evaluators/Spec.v
theories/Events/Format.v
theories/Events/Generate.v
theories/Events/Lists.v
theories/Events/Model.v
theories/Events/Momenta.v
theories/Events/Ordering.v
theories/Events/Props.v
theories/Events/Shuffle.v
theories/Events/Spec.v
theories/Expr/Derivative.v
theories/Expr/DerivativeProofs.v
theories/Expr/DerivativeSpec.v
theories/Expr/Model.v
theories/Expr/Print.v
theories/Expr/PrintProofs.v
theories/Expr/PrintSpec.v
theories/Expr/Proofs.v
theories/Expr/Props.v
theories/Expr/PropsDerivative.v
theories/Expr/PropsPrint.v
theories/Expr/PropsSimplify.v
theories/Expr/Simplify.v
theories/Expr/SimplifyProofs.v
theories/Expr/Spec.v
theories/Expr/Term.v
theories/External/Model.v
theories/External/Photon.v
theories/External/Proofs.v
theories/External/Props.v
theories/External/Rates.v
theories/External/Spec.v
theories/External/Spinors.v
theories/External/Weyl.v
theories/Fit/Model.v
theories/Fit/Proofs.v
theories/Fit/Props.v
theories/Fit/Spec.v
theories/FitResult/Model.v
theories/FitResult/Proofs.v
theories/FitResult/Props.v
theories/FitResult/Spec.v
theories/Fractions/Model.v
theories/Fractions/Proofs.v
theories/Fractions/Props.v
theories/Fractions/Spec.v
theories/Helicity/Model.v
theories/Helicity/Proofs.v
theories/Helicity/Props.v
theories/Helicity/Spec.v
theories/Incoherent/Model.v
theories/Incoherent/Proofs.v
theories/Incoherent/Props.v
theories/Incoherent/Spec.v
theories/Integrate/HeapProofs.v
theories/Integrate/IntProofs.v
theories/Integrate/LoopProofs.v
theories/Integrate/Model.v
theories/Integrate/PolyProofs.v
theories/Integrate/PolySpec.v
theories/Integrate/Props.v
theories/Integrate/RuleProofs.v
theories/Integrate/Spec.v
theories/Integrate/TableProofs.v
theories/Integrate/TopProofs.v
theories/Kahan/Model.v
theories/Kahan/Proofs.v
theories/Kahan/Props.v
theories/Kahan/Spec.v
theories/Kinematics/Model.v
theories/Kinematics/Proofs.v
theories/Kinematics/Props.v
theories/Kinematics/Spec.v
theories/Lineshapes/BWProofs.v
theories/Lineshapes/BarrierProofs.v
theories/Lineshapes/ChannelProofs.v
theories/Lineshapes/KProofs.v
theories/Lineshapes/Model.v
theories/Lineshapes/PropsBW.v
theories/Lineshapes/PropsBarrier.v
theories/Lineshapes/PropsK.v
theories/Lineshapes/PropsSwave.v
theories/Lineshapes/ShapeProofs.v
theories/Lineshapes/Spec.v
theories/Lineshapes/UnitProofs.v
theories/Minuit/Load.v
theories/Minuit/Model.v
theories/Minuit/Proofs.v
theories/Minuit/Props.v
theories/Minuit/Spec.v
theories/Named/Model.v
theories/Named/Proofs.v
theories/Named/Props.v
theories/Objects/Model.v
theories/Objects/Proofs.v
theories/Objects/Props.v
theories/Objects/Spec.v
theories/Options/Model.v
theories/Options/Proofs.v
theories/Options/Props.v
theories/Options/Spec.v
theories/Order/Model.v
theories/Order/Proofs.v
theories/Order/Props.v
theories/Order/Spec.v
theories/Pade/Model.v
theories/Pade/Proofs.v
theories/Pade/Props.v
theories/Pade/Spec.v
theories/Parity/Model.v
theories/Parity/Proofs.v
theories/Parity/Props.v
theories/Parity/Spec.v
theories/Parser/Model.v
theories/Parser/Proofs.v
theories/Parser/Props.v
theories/Parser/Returns.v
theories/Parser/Spec.v
theories/Penalties/Model.v
theories/Penalties/Proofs.v
theories/Penalties/Props.v
theories/Penalties/Spec.v
theories/Phsp/Model.v
theories/Phsp/Proofs.v
theories/Phsp/Props.v
theories/Phsp/Spec.v
theories/Polarised/DensityProofs.v
theories/Polarised/Model.v
theories/Polarised/NormProofs.v
theories/Polarised/Proofs.v
theories/Polarised/PropsDensity.v
theories/Polarised/PropsNorm.v
theories/Polarised/Spec.v
theories/Pool/Model.v
theories/Pool/Proofs.v
theories/Pool/Props.v
theories/Project/Model.v
theories/Project/Proofs.v
theories/Project/Props.v
theories/Project/Spec.v
theories/Propagators/Model.v
theories/Propagators/Proofs.v
theories/Propagators/Props.v
theories/Propagators/Spec.v
theories/Quarks/Model.v
theories/Quarks/Proofs.v
theories/Quarks/Props.v
theories/Quarks/Spec.v
theories/Recursive/Events.v
theories/Recursive/Model.v
theories/Recursive/Proofs.v
theories/Recursive/Props.v
theories/Recursive/Spec.v
theories/Resolver/CacheProofs.v
theories/Resolver/Model.v
theories/Resolver/Proofs.v
theories/Resolver/Props.v
theories/Resolver/Spec.v
theories/Rotations/Matrix.v
theories/Rotations/Model.v
theories/Rotations/Proofs.v
theories/Rotations/Props.v
theories/Rotations/Spec.v
theories/Rules/Model.v
theories/Rules/Multi.v
theories/Rules/Proofs.v
theories/Rules/Props.v
theories/Rules/Spec.v
theories/Rules/Strings.v
theories/Shapes/Model.v
theories/Shapes/Proofs.v
theories/Shapes/Props.v
theories/Shapes/Spec.v
theories/Simd/Model.v
theories/Simd/Proofs.v
theories/Simd/Props.v
theories/Simd/Spec.v
theories/Species/Model.v
theories/Species/Proofs.v
theories/Species/Props.v
theories/Species/Spec.v
theories/Spline/Model.v
theories/Spline/Proofs.v
theories/Spline/Props.v
theories/Spline/Spec.v
theories/States/Model.v
theories/States/Proofs.v
theories/States/Props.v
theories/States/Spec.v
theories/Store/Model.v
theories/Store/Proofs.v
theories/Store/Props.v
theories/Store/Spec.v
theories/Symbols/Model.v
theories/Symbols/Proofs.v
theories/Symbols/Props.v
theories/Symbols/Spec.v
theories/Symmetrise/Model.v
theories/Symmetrise/Proofs.v
theories/Symmetrise/Props.v
theories/Symmetrise/Spec.v
theories/Symmetrise/Sums.v
theories/Tensor/Invert.v
theories/Tensor/InvertProofs.v
theories/Tensor/InvertStages.v
theories/Tensor/Levi.v
theories/Tensor/LeviProofs.v
theories/Tensor/Model.v
theories/Tensor/ProductProofs.v
theories/Tensor/Proofs.v
theories/Tensor/Props.v
theories/Tensor/PropsInvert.v
theories/Tensor/Spec.v
theories/ThreeBody/Model.v
theories/ThreeBody/Proofs.v
theories/ThreeBody/Props.v
theories/ThreeBody/Spec.v
theories/Transform/Model.v
theories/Transform/Proofs.v
theories/Transform/Props.v
theories/Transform/SeqProofs.v
theories/Transform/Spec.v
theories/Tree/Memory.v
theories/Tree/Model.v
theories/Tree/Proofs.v
theories/Tree/Props.v
theories/Tree/Quasi.v
theories/Tree/Spec.v
theories/Trees/Model.v
theories/Trees/Proofs.v
theories/Trees/Proofs2.v
theories/Trees/Props.v
theories/Trees/Spec.v
theories/Types/Model.v
theories/Types/Proofs.v
theories/Types/Props.v
theories/Types/Range.v
theories/Types/Spec.v
theories/Utilities/MinSwaps.v
theories/Utilities/Model.v
theories/Utilities/Proofs.v
theories/Utilities/Proofs2.v
theories/Utilities/Props.v
theories/Utilities/Spec.v
theories/Vertex/Algebra.v
theories/Vertex/BosonProofs.v
theories/Vertex/Covariance.v
theories/Vertex/DiracProofs.v
theories/Vertex/FermionProofs.v
theories/Vertex/Maps.v
theories/Vertex/Model.v
theories/Vertex/OrbitalProofs.v
theories/Vertex/PropsBoson.v
theories/Vertex/PropsFermion.v
theories/Vertex/PropsOrbital.v
theories/Vertex/Spec.v
theories/Wigner/Model.v
theories/Wigner/Proofs.v
theories/Wigner/Props.v
theories/Wigner/Spec.v
theories/Wigner/Sums.v
