-Q theories Verif

theories/Base/RealAux.v
theories/Model/Kepler.v
theories/Spec/KeplerSpec.v
theories/Proof/KeplerProof.v
theories/Proof/KeplerExact.v
theories/Proof/KeplerMore.v
theories/Properties/KeplerProps.v
theories/Base/Analysis.v
theories/Model/LimbDark.v
theories/Spec/LimbDarkSpec.v
theories/Proof/LimbDarkProof.v
theories/Proof/LimbDarkGreen.v
theories/Proof/LimbDarkArea.v
theories/Properties/LimbDarkProps.v
theories/Properties/OccultProps.v
theories/Model/Transforms.v
theories/Model/TransitOrbit.v
theories/Model/LightCurves.v
theories/Spec/ArraySpec.v
theories/Proof/TransformsProof.v
theories/Proof/TransformsMore.v
theories/Proof/TransitProof.v
theories/Properties/TransformProps.v
theories/Model/TTV.v
theories/Spec/TTVSpec.v
theories/Proof/TTVProof.v
theories/Properties/TTVProps.v
theories/Model/Keplerian.v
theories/Spec/OrbitSpec.v
theories/Proof/KeplerianProof.v
theories/Proof/KeplerianMore.v
theories/Properties/KeplerianProps.v
theories/Base/Dict.v
theories/Model/Poly.v
theories/Spec/PolySpec.v
theories/Proof/PolyProof.v
theories/Proof/PolyMatrix.v
theories/Proof/PolyUnique.v
theories/Properties/PolyProps.v
theories/Model/Basis.v
theories/Proof/BasisProof.v
theories/Base/LinAlg.v
theories/Spec/BasisSpec.v
theories/Proof/GreenProof.v
theories/Proof/GreenInv.v
theories/Properties/BasisProps.v
theories/Model/Stack.v
theories/Spec/StackSpec.v
theories/Proof/StackProof.v
theories/Properties/StackProps.v
theories/Model/Units.v
theories/Spec/UnitsSpec.v
theories/Proof/UnitsProof.v
theories/Properties/UnitsProps.v
theories/Spec/HarmonicSpec.v
theories/Proof/HarmonicProof.v
theories/Model/S2fft.v
theories/Model/Rotation.v
theories/Spec/RotationSpec.v
theories/Proof/RotationProof.v
theories/Proof/AxisAngle.v
theories/Properties/HarmonicProps.v
theories/Properties/RotationProps.v
theories/Proof/LegendreT.v
theories/Proof/WignerGen.v
theories/Proof/WignerStep.v
theories/Proof/WignerRot.v
theories/Proof/WignerMap.v
theories/Proof/HarmonicUnique.v
theories/Proof/Euler.v
theories/Proof/RotationMap.v
theories/Proof/RotationMore.v
theories/Properties/RotationMapProps.v
theories/Proof/A1Inv.v
theories/Model/Solution.v
theories/Spec/DiskSpec.v
theories/Proof/DiskProof.v
theories/Proof/RTProof.v
theories/Properties/SolutionProps.v
theories/Model/Wigner3j.v
theories/Spec/Wigner3jSpec.v
theories/Proof/Wigner3jProof.v
theories/Proof/Wigner3jMain.v
theories/Properties/Wigner3jProps.v
theories/Model/Ylm.v
theories/Model/RvMap.v
theories/Model/SolutionVector.v
theories/Model/Surface.v
theories/Model/StarryLightCurve.v
theories/Model/SurfaceSystem.v
theories/Model/Spot.v
theories/Spec/SpotSpec.v
theories/Spec/SystemSpec.v
theories/Spec/YlmSpec.v
theories/Spec/SurfaceSpec.v
theories/Proof/YlmProof.v
theories/Proof/YlmMore.v
theories/Proof/YlmFacts.v
theories/Proof/SurfaceProof.v
theories/Proof/DiskRot.v
theories/Proof/StarryProof.v
theories/Proof/DopplerProof.v
theories/Proof/IntensityProof.v
theories/Proof/SpotProof.v
theories/Proof/SystemProof.v
theories/Proof/SystemLight.v
theories/Proof/SurfaceFacts.v
theories/Proof/SystemExamples.v
theories/Properties/YlmProps.v
theories/Properties/SurfaceProps.v
theories/Properties/StarryProps.v
theories/Spec/OccultSpec.v
theories/Spec/SkySpec.v
theories/Proof/Ray.v
theories/Proof/Edge.v
theories/Proof/Occult.v
theories/Proof/Monomial.v
theories/Proof/GreenLine.v
theories/Proof/GreenFamilies.v
theories/Proof/SolutionGreen.v
theories/Proof/SolutionQuad.v
theories/Proof/OccultedSky.v
theories/Proof/OccultedFlux.v
theories/Properties/SkyProps.v
theories/Model/StarryUtils.v
theories/Spec/DrawSpec.v
theories/Proof/UtilsProof.v
theories/Proof/UtilsFacts.v
theories/Properties/UtilsProps.v
theories/Proof/ShearProof.v
theories/Base/PolyBounds.v
theories/Proof/KeplerStarter.v
theories/Proof/KeplerResidual.v
theories/Proof/KeplerAccuracy.v
theories/Proof/KeplerOrbit.v
theories/Properties/KeplerAccuracyProps.v
theories/Model/MpBasis.v
theories/Model/MpLightCurve.v
theories/Proof/MpA1.v
theories/Proof/MpA2.v
theories/Proof/MpGreen.v
theories/Proof/MpLight.v
theories/Properties/MpProps.v
theories/Spec/QuadSpec.v
theories/Proof/Polynomials.v
theories/Proof/GaussLegendre.v
theories/Proof/Weierstrass.v
theories/Proof/OrderLimit.v
theories/Proof/Chebyshev.v
theories/Proof/EvenError.v
theories/Proof/OddLimit.v
theories/Proof/MapLimit.v
theories/Properties/OrderProps.v
theories/Model/MpSolution.v
theories/Proof/MpSolutionProof.v
theories/Proof/MpLimbDark.v
theories/Properties/MpSolutionProps.v
theories/Spec/ShadowSpec.v
theories/Proof/Shadows.v
theories/Proof/ShadowExamples.v
theories/Properties/ShadowProps.v
theories/Model/MpRotation.v
theories/Spec/MpRotationSpec.v
theories/Spec/MpCacheSpec.v
theories/Proof/MpWigner.v
theories/Proof/MpEuler.v
theories/Proof/MpRotationProof.v
theories/Proof/MpRotationDot.v
theories/Proof/MpRotationCache.v
theories/Properties/MpRotationProps.v
theories/Model/MpFlux.v
theories/Spec/MpFluxSpec.v
theories/Proof/MpFluxProof.v
theories/Properties/MpFluxProps.v
theories/Model/FastProject.v
theories/Proof/FastProjectProof.v
theories/Proof/FastProjectFacts.v
theories/Properties/FastProjectProps.v
theories/Model/Dlmn.v
theories/Proof/DlmnRec.v
theories/Proof/DlmnProof.v
theories/Proof/DlmnReal.v
theories/Proof/DlmnTop.v
theories/Proof/DlmnMain.v
theories/Proof/DlmnFacts.v
theories/Properties/DlmnProps.v
theories/Proof/RacahSum.v
theories/Proof/Racah.v
theories/Proof/RacahNorm.v
theories/Proof/RacahPlateau.v
theories/Proof/RacahMain.v
theories/Proof/RacahCyclic.v
theories/Model/MpPrecision.v
theories/Spec/PrecisionSpec.v
theories/Proof/PrecisionProof.v
theories/Properties/PrecisionProps.v
theories/Spec/TransitSpec.v
theories/Proof/TransitFlux.v
theories/Properties/TransitFluxProps.v
theories/Proof/RvLimit.v
theories/Properties/RvOrderProps.v
theories/Spec/RvSystemSpec.v
theories/Proof/SystemRv.v
theories/Proof/RvCounter.v
theories/Proof/SystemRvLimit.v
theories/Properties/SystemRvProps.v
theories/Model/FullBasis.v
theories/Proof/FullBasis.v
theories/Model/SystemMethods.v
theories/Spec/SystemMethodsSpec.v
theories/Proof/SystemMethods.v
theories/Properties/SystemMethodsProps.v
theories/Proof/StackFail.v
theories/Model/AutoDiff.v
theories/Model/LightCurveGrad.v
theories/Spec/AutoDiffSpec.v
theories/Proof/AutoDiff.v
theories/Proof/LightCurveGrad.v
theories/Proof/LightCurveDeriv.v
theories/Proof/LightCurveTangent.v
theories/Proof/LightCurveGradFacts.v
theories/Properties/GradProps.v
theories/Model/TransitGrad.v
theories/Spec/TransitGradSpec.v
theories/Proof/TransitGrad.v
theories/Properties/TransitGradProps.v
theories/Model/KeplerGrad.v
theories/Spec/KeplerGradSpec.v
theories/Proof/KeplerGrad.v
theories/Properties/KeplerGradProps.v
theories/Model/StarryGrad.v
theories/Spec/StarryGradSpec.v
theories/Proof/StarryGrad.v
theories/Proof/StarryGradFlux.v
theories/Proof/StarryGradDesign.v
theories/Properties/StarryGradProps.v
theories/Proof/StarryGradPoly.v
theories/Proof/StarryGradCurve.v
theories/Proof/StarryGradFree.v
theories/Properties/StarryCurveGradProps.v
theories/Proof/StarryGradShape.v
theories/Model/StarryRvGrad.v
theories/Spec/StarryRvGradSpec.v
theories/Proof/StarryRvGrad.v
theories/Proof/StarryRvFree.v
theories/Properties/StarryRvGradProps.v
theories/Model/SystemGrad.v
theories/Spec/SystemGradSpec.v
theories/Proof/SystemGrad.v
theories/Properties/SystemGradProps.v
theories/Proof/SystemRvGrad.v
theories/Properties/SystemRvGradProps.v
theories/Proof/SystemGradMore.v
theories/Proof/SystemGradFree.v
