-Q theories Verif
theories/Model/Num.v
theories/Model/Np.v
theories/Model/Spectral.v
theories/Proofs/ListLemmas.v
theories/Proofs/Sums.v
theories/Proofs/Fourier.v
theories/Proofs/RIntLemmas.v
theories/Proofs/Kernels.v
theories/Model/Basis.v
theories/Spec/Trig.v
theories/Proofs/Trig.v
theories/Model/Grids1.v
theories/Proofs/Ops.v
theories/Proofs/Exact.v
theories/Proofs/BasisP.v
theories/Spec/Tiling.v
theories/Proofs/Grids1P.v
theories/Proofs/GridsThm.v
theories/Proofs/RingSums.v
theories/Proofs/Deriv.v
theories/Props/Grid1.v
theories/Props/Spectral.v
theories/Proofs/PeriodicBasis.v
theories/Props/Periodic.v
theories/Proofs/Mirror.v
theories/Props/Mirror.v
theories/Model/Regular.v
theories/Proofs/Symm.v
theories/Proofs/RegularP.v
theories/Proofs/RegularBasis.v
theories/Props/Regular.v
theories/Model/Sym.v
theories/Spec/Ext.v
theories/Props/Symbolic.v
theories/Model/Data.v
theories/Proofs/DataP.v
theories/Spec/Json.v
theories/Props/Data.v
theories/Model/Chebyshev.v
theories/Model/Common.v
theories/Model/Decform.v
theories/Proofs/Lin.v
theories/Proofs/TableLin.v
theories/Props/Decform.v
theories/Proofs/LinAlg.v
theories/Spec/CInt.v
theories/Proofs/FourierK.v
theories/Props/FourierK.v
theories/Proofs/Cheb1.v
theories/Proofs/ChebGuard.v
theories/Spec/Poly.v
theories/Proofs/ChebPoly.v
theories/Proofs/Cheb2.v
theories/Proofs/TrigAlg.v
theories/Props/Chebyshev.v
theories/Proofs/Cheb3.v
theories/Proofs/Refine.v
theories/Proofs/Leibniz.v
theories/Props/Refinement.v
theories/Proofs/ChebRefine.v
theories/Model/Grid2.v
theories/Proofs/Arr2.v
theories/Props/Shape.v
theories/Proofs/Grid2P.v
theories/Proofs/Grid2Ops.v
theories/Props/Grid2.v
theories/Props/Cells2.v
theories/Props/Refine2.v
theories/Proofs/Wedge2.v
theories/Props/Wedge2.v
theories/Model/Forms.v
theories/Props/Forms.v
theories/Model/Integrate.v
theories/Props/Integrate.v
theories/Props/Lagrange.v
theories/Model/Helper.v
theories/Proofs/RoundP.v
theories/Props/Helper.v
theories/Props/Schur.v
theories/Props/Quad.v
theories/Model/Quad.v
theories/Proofs/ChebBasis.v
theories/Props/ChebCardinal.v
theories/Spec/Plane.v
theories/Proofs/Fubini.v
theories/Proofs/Stokes2.v
theories/Props/Stokes2.v
theories/Props/Basis2.v
theories/Spec/Resolved.v
theories/Proofs/Exact1.v
theories/Props/Exact1.v
theories/Proofs/Triangle.v
theories/Props/Simplex.v
theories/Model/Discretise.v
theories/Spec/Sympy.v
theories/Proofs/DiscretiseP.v
theories/Props/Discretise.v
theories/Props/Commute.v
theories/Props/SymArith.v
theories/Props/Matrices.v
theories/Spec/Separable.v
theories/Proofs/Exact2.v
theories/Props/Exact2.v
theories/Props/Complete1.v
theories/Props/Complete2.v
theories/Props/Operators.v
theories/Props/HalfEdge.v
theories/Props/Fold.v
theories/Model/Explicit.v
theories/Props/Explicit.v
theories/Model/Project2.v
theories/Proofs/Project2P.v
theories/Props/Project2.v
theories/Model/Laplacian.v
theories/Proofs/LaplaceP.v
theories/Props/Laplacian.v
theories/Proofs/Cohomology.v
theories/Props/Cohomology.v
theories/Model/Access.v
theories/Props/Access.v
theories/Proofs/Gram.v
theories/Props/Energy.v
theories/Proofs/InjSurj.v
theories/Props/Poisson2.v
theories/Proofs/Ops2.v
theories/Props/HodgeDec.v
theories/Model/Records.v
theories/Props/Records.v
theories/Props/Helpers2.v
theories/Props/Laplace2.v
theories/Model/Deprecated.v
theories/Proofs/DeprecatedP.v
theories/Proofs/DeprecatedQ.v
theories/Props/Deprecated.v
theories/Props/Processes.v
theories/Props/Commute2.v
theories/Spec/Euler.v
theories/Model/Samples.v
theories/Props/Samples.v
theories/Model/Processes.v
theories/Props/Spectrum.v
theories/Props/Spectrum2.v
theories/Spec/Series.v
theories/Proofs/SeriesP.v
theories/Props/Convergence.v
theories/Props/Convergence1.v
theories/Props/Convergence2.v
theories/Props/Convergence3.v
