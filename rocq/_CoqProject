-Q theories Verif

theories/Model/FloatBase.v
theories/Model/Scalar.v
theories/Model/Float.v
theories/Model/Interval.v
theories/Model/Outcome.v
theories/Model/Vec.v
theories/Model/Transform.v
theories/Model/XReal.v
theories/Model/Ints.v
theories/Model/Geometry.v
theories/Model/Camera.v
theories/Spec.v
theories/Proofs/BitsLemmas.v
theories/Proofs/FloatLemmas.v
theories/Proofs/PiBounds.v
theories/Proofs/ScalarProofs.v
theories/Proofs/IntervalBase.v
theories/Proofs/IntervalProofs.v
theories/SpecExpr.v
theories/SpecError.v
theories/Proofs/IntervalProofs2.v
theories/Proofs/IntervalRefute.v
theories/Proofs/MulStraddle.v
theories/SpecGeom.v
theories/SpecInt.v
theories/SpecShape.v
theories/SpecSphere.v
theories/SpecPrim.v
theories/SpecCamera.v
theories/SpecTrig.v
theories/SpecLens.v
theories/SpecScene.v
theories/Proofs/XRealLemmas.v
theories/Proofs/MatrixProofs.v
theories/Proofs/TransformProofs.v
theories/Proofs/RotationProofs.v
theories/Proofs/TransformThms.v
theories/Proofs/TransformThms2.v
theories/Proofs/IntProofs.v
theories/Proofs/IntProofs2.v
theories/Proofs/TransformFloat.v
theories/Proofs/MatrixThms.v
theories/Proofs/TransformCases.v
theories/Proofs/NormalExact.v
theories/Proofs/VectorFloat.v
theories/Proofs/VectorExact.v
theories/Proofs/VectorInterval.v
theories/Proofs/VectorCases.v
theories/Proofs/BoxFloat.v
theories/Proofs/BoxExact.v
theories/Proofs/BoxCases.v
theories/Proofs/BoxMapExact.v
theories/Proofs/SphereExact.v
theories/Proofs/SphereThms.v
theories/Proofs/SphereCases.v
theories/Proofs/PrimProofs.v
theories/Proofs/PrimThms.v
theories/Proofs/CameraProofs.v
theories/Proofs/CameraThms.v
theories/Proofs/DiskBijection.v
theories/Proofs/TrigReal.v
theories/Proofs/IntervalTrig.v
theories/Proofs/IntervalTrig2.v
theories/Proofs/PiShift.v
theories/Proofs/IntervalTrig3.v
theories/Proofs/ArcExact.v
theories/Proofs/IntervalTraits.v
theories/Props/P_Scalar.v
theories/Props/P_Interval.v
theories/Props/P_Transform.v
theories/Props/P_Ints.v
theories/Props/P_Vector.v
theories/Props/P_Box.v
theories/Props/P_Sphere.v
theories/Props/P_Prim.v
theories/Props/P_Camera.v
theories/Props/P_IntervalTrig.v
theories/Props/P_IntervalTraits.v
theories/Proofs/IntervalTrigOrder.v
theories/Proofs/IntervalIso.v
theories/Props/P_IntervalLaws.v
theories/Proofs/ScalarMisc.v
theories/Proofs/BoxClosest.v
theories/Proofs/IntervalFloat.v
theories/Proofs/SlabFloat.v
theories/Proofs/SlabCases.v
theories/Proofs/SphereFloat.v
theories/Props/P_FloatGeom.v
theories/Proofs/VectorErr.v
theories/Proofs/MapErr.v
theories/Proofs/ErrCases.v
theories/Proofs/DiskFloat.v
theories/Proofs/PiIrrational.v
theories/Proofs/TrigTight.v
theories/Proofs/CameraFloat.v
theories/Proofs/LensCases.v
theories/Proofs/SceneProofs.v
theories/Proofs/DiskCases.v
theories/Props/P_FloatErr.v
theories/Proofs/EqualityProofs.v
theories/Props/P_FloatCamera.v
theories/Props/P_Equality.v
theories/Props/P_TrigTight.v
theories/Props/P_Lens.v
theories/Props/P_Scene.v
theories/SpecQuad.v
theories/Proofs/QuadFloat.v
theories/Proofs/SphereErr.v
theories/Proofs/SphereNear.v
theories/Proofs/SpherePole.v
theories/Proofs/SphereSeen.v
theories/Proofs/ExactCond.v
theories/Props/P_Quad.v
theories/SpecRot.v
theories/SpecPersp.v
theories/SpecInverse.v
theories/SpecPanic.v
theories/SpecMaps.v
theories/SpecTrace.v
theories/Proofs/RotFloat.v
theories/Proofs/LookFloat.v
theories/Proofs/RotCases.v
theories/Proofs/PerspFloat.v
theories/Proofs/PerspThms.v
theories/Proofs/InverseFloat.v
theories/Proofs/InverseCases.v
theories/Proofs/ScenePanic.v
theories/Proofs/MapComp.v
theories/Proofs/MapBack.v
theories/Proofs/TraceFloat.v
theories/Proofs/TraceCases.v
theories/Proofs/FilmFloat.v
theories/SpecFrame.v
theories/SpecBoxes.v
theories/SpecSign.v
theories/Proofs/FrameFloat.v
theories/Proofs/FrameHit.v
theories/Proofs/FrameCases.v
theories/Proofs/FrameV.v
theories/Proofs/BoxMapFloat.v
theories/Proofs/BoxMapCases.v
theories/Proofs/SceneBoxFloat.v
theories/Proofs/AreaFloat.v
theories/Proofs/IdentityFloat.v
theories/Proofs/IdentityBox.v
theories/Proofs/IdentitySphere.v
theories/Props/P_FloatRot.v
theories/Props/P_FloatPersp.v
theories/Props/P_FloatInverse.v
theories/Props/P_Panic.v
theories/Props/P_FloatMaps.v
theories/Props/P_Trace.v
theories/Props/P_Film.v
theories/Props/P_Frame.v
theories/Props/P_BoxMap.v
theories/Props/P_SceneBox.v
theories/Props/P_Area.v
theories/Props/P_Identity.v
