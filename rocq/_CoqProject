-Q theories Verif
theories/Fld.v
theories/Inst.v
theories/Prog.v
theories/View.v
theories/Spec.v
theories/Loop.v
theories/Avector.v
theories/AvectorP.v
theories/Amatrix.v
theories/AmatrixP.v
theories/AmatrixP2.v
theories/PropDense.v
theories/Arr.v
theories/Sparse.v
theories/SparseP.v
theories/Norm.v
theories/NormP.v
theories/PropSparse.v
theories/Ord.v
theories/OrdInst.v
theories/Cluster.v
theories/ClusterSpec.v
theories/ClusterP.v
theories/ClusterP2.v
theories/ClusterP3.v
theories/ClusterP4.v
theories/ClusterP5.v
theories/ClusterP6.v
theories/PropCluster.v
theories/Par.v
theories/ParP.v
theories/ClusterPar.v
theories/ClusterParP.v
theories/PropPar.v
theories/Block.v
theories/BlockSpec.v
theories/BlockP.v
theories/BlockP2.v
theories/BlockP3.v
theories/BlockP4.v
theories/BlockP5.v
theories/BlockP6.v
theories/BlockP7.v
theories/BlockP8.v
theories/PropBlock.v
theories/PropBlockPar.v
theories/Factor.v
theories/FactorSpec.v
theories/Line.v
theories/FactorP.v
theories/FactorP2.v
theories/FactorP3.v
theories/FactorP4.v
theories/PropFactor.v
theories/Lr.v
theories/LrP.v
theories/LrP2.v
theories/LrP3.v
theories/PropLr.v
theories/Chol.v
theories/CholSpec.v
theories/CholP.v
theories/CholP2.v
theories/CholP3.v
theories/CholP4.v
theories/CholP5.v
theories/CholInst.v
theories/PropChol.v
theories/Qr.v
theories/QrSpec.v
theories/QrP.v
theories/QrP2.v
theories/QrP3.v
theories/QrP4.v
theories/QrP5.v
theories/QrP6.v
theories/QrP7.v
theories/QrP8.v
theories/QrP9.v
theories/QrP10.v
theories/QrInst.v
theories/PropQr.v
theories/Krylov.v
theories/KrylovSpec.v
theories/KrylovP.v
theories/KrylovP2.v
theories/KrylovP3.v
theories/KrylovP4.v
theories/KrylovP5.v
theories/KrylovP6.v
theories/KrylovP7.v
theories/KrylovInst.v
theories/PropKrylov.v
theories/Gmres.v
theories/GmresP.v
theories/GmresInst.v
theories/PropGmres.v
theories/Rkmatrix.v
theories/RkSpec.v
theories/RkP.v
theories/Trunc.v
theories/TruncP.v
theories/PropRk.v
theories/Hmatrix.v
theories/HmSpec.v
theories/HmP.v
theories/HmP2.v
theories/HmP3.v
theories/PropHm.v
theories/HmP4.v
theories/HmP5.v
theories/HmP6.v
theories/HmP7.v
theories/PropHm2.v
theories/Basic.v
theories/SortP.v
theories/AllocP.v
theories/PropBasic.v
theories/Aca.v
theories/AcaSpec.v
theories/AcaP.v
theories/AcaP2.v
theories/AcaP3.v
theories/AcaP4.v
theories/AcaP5.v
theories/AcaP6.v
theories/AcaP7.v
theories/AcaInst.v
theories/PropAca.v
theories/Clusterbasis.v
theories/CbSpec.v
theories/CbP.v
theories/CbP2.v
theories/CbP3.v
theories/CbP4.v
theories/CbP5.v
theories/CbP6.v
theories/CbP7.v
theories/CbP8.v
theories/PropCb.v
theories/CbP9.v
theories/CbP10.v
theories/PropCb2.v
theories/Cbmgr.v
theories/CbmSpec.v
theories/CbmP.v
theories/CbmP2.v
theories/CbmP3.v
theories/PropCbm.v
theories/Clusterop.v
theories/CopSpec.v
theories/OrthoP.v
theories/OrthoP2.v
theories/OrthoP3.v
theories/OrthoP4.v
theories/OrthoP5.v
theories/OrthoP6.v
theories/WeightP.v
theories/WeightP2.v
theories/PropOrtho.v
theories/CopP.v
theories/CopP2.v
theories/CopP3.v
theories/PropCop.v
theories/H2matrix.v
theories/H2Spec.v
theories/H2P.v
theories/H2P2.v
theories/H2P3.v
theories/H2P4.v
theories/H2P5.v
theories/PropH2.v
theories/PropH22.v
theories/RefHeap.v
theories/RefSpec.v
theories/RefP.v
theories/RefP2.v
theories/RefP3.v
theories/RefP4.v
theories/RefP5.v
theories/PropRef.v
theories/Hlib.v
theories/HlibSpec.v
theories/HlibP.v
theories/HlibP2.v
theories/HlibP3.v
theories/HlibP4.v
theories/HlibP5.v
theories/HlibP6.v
theories/PropHlib.v
theories/H2build.v
theories/H2bSpec.v
theories/H2bP.v
theories/H2bP2.v
theories/H2bP3.v
theories/H2bP4.v
theories/PropH2b.v
theories/Harith.v
theories/HaSpec.v
theories/HaP.v
theories/HaP2.v
theories/HaP3.v
theories/HaP4.v
theories/PropHarith.v
theories/Htrunc.v
theories/HtSpec.v
theories/SepP.v
theories/SepP2.v
theories/SepP3.v
theories/HtP.v
theories/HtP2.v
theories/HtP3.v
theories/HtP4.v
theories/HtP5.v
theories/HtInst.v
theories/PropHtrunc.v
theories/Hadd.v
theories/MgP.v
theories/MgP2.v
theories/MgP3.v
theories/HaddSpec.v
theories/HmvP.v
theories/HaddP.v
theories/HaddP2.v
theories/HaddP3.v
theories/HaddP4.v
theories/HaddP5.v
theories/HaddP6.v
theories/PropHadd.v
theories/Hmul.v
theories/HmulP.v
theories/HmulP2.v
theories/HmulP3.v
theories/HmulP4.v
theories/HmulP5.v
theories/PropHmul.v
theories/Hfac.v
theories/HfacSpec.v
theories/HfacP.v
theories/HfacP2.v
theories/HfacP3.v
theories/HfacP4.v
theories/HfacP5.v
theories/PropHfac.v
theories/Hchol.v
theories/HcholP.v
theories/HcholP2.v
theories/HcholP3.v
theories/HcholP4.v
theories/HcholP5.v
theories/PropHchol.v
theories/Hinv.v
theories/HinvSpec.v
theories/HinvP.v
theories/HinvP2.v
theories/HinvP3.v
theories/HinvP4.v
theories/HinvP5.v
theories/PropHinv.v
theories/HinvP6.v
theories/PropHtri.v
theories/Tri2d.v
theories/Tri2dSpec.v
theories/Tri2dP.v
theories/Tri2dP2.v
theories/Tri2dP3.v
theories/Tri2dP4.v
theories/Tri2dP5.v
theories/PropTri2d.v
theories/Tri2db.v
theories/Tri2dbSpec.v
theories/Tri2dbP.v
theories/Tri2dbP2.v
theories/Tri2dbP3.v
theories/Tri2dbP4.v
theories/PropTri2db.v
theories/Admis.v
theories/AdmisSpec.v
theories/AdmisP.v
theories/AdmisP2.v
theories/PropAdmis.v
theories/Surf.v
theories/SurfSpec.v
theories/SurfP.v
theories/SurfP2.v
theories/SurfP3.v
theories/SurfP4.v
theories/SurfP5.v
theories/SurfP6.v
theories/PropSurf.v
theories/Fem.v
theories/FemSpec.v
theories/FemP.v
theories/FemP2.v
theories/FemP3.v
theories/FemP4.v
theories/FemP5.v
theories/FemP6.v
theories/PropFem.v
theories/Fem2.v
theories/Fem2Spec.v
theories/FemP7.v
theories/FemP8.v
theories/FemP9.v
theories/PropFem2.v
theories/Curve.v
theories/CurveSpec.v
theories/CurveP.v
theories/CurveP2.v
theories/CurveP3.v
theories/PropCurve.v
