-Q theories Verif
theories/Base.v
theories/Num.v
theories/Graph_Spec.v
theories/Graph_Model.v
theories/Graph_Proofs.v
theories/Graph_Factories.v
theories/Graph_Props.v
theories/GraphAlg_Model.v
theories/GraphAlg_Tree.v
theories/GraphAlg_Bfs.v
theories/GraphAlg_Dfs.v
theories/GraphAlg_Visit.v
theories/GraphAlg_TravProps.v
theories/GraphAlg_Dijkstra.v
theories/GraphAlg_Float.v
theories/GraphAlg_SpProps.v
theories/GraphAlg_Cycle.v
theories/GraphAlg_Topo.v
theories/GraphAlg_Comp.v
theories/GraphAlg_Bellman.v
theories/GraphAlg_Forest.v
theories/GraphAlg_UnionFind.v
theories/GraphAlg_Kruskal.v
theories/GraphAlg_Prim.v
theories/Mat_Model.v
theories/Mat_Proofs.v
theories/Mat_Props.v
theories/GraphMat_Model.v
theories/GraphMat_Props.v
theories/Pool_Model.v
theories/Pool_Proofs.v
theories/Pool_Props.v
theories/Lin_Base.v
theories/Gauss_Model.v
theories/Gauss_Proofs.v
theories/Gauss_Props.v
theories/Det.v
theories/LU_Model.v
theories/LU_Proofs.v
theories/LU_Props.v
theories/Chol_Model.v
theories/Chol_Proofs.v
theories/Chol_Props.v
theories/Band_Model.v
theories/Band_Proofs.v
theories/Band_Props.v
theories/Poly_Model.v
theories/Poly_Proofs.v
theories/Poly_Proofs2.v
theories/Poly_Props.v
theories/Interval_Model.v
theories/Interval_Props.v
theories/RootFind_Model.v
theories/RootFind_Proofs.v
theories/RootFind_Props.v
theories/Kd_Model.v
theories/Kd_Proofs.v
theories/Kd_Props.v
theories/Kd_Float.v
theories/Geom_Model.v
theories/Geom_Spec.v
theories/Hull_Proofs.v
theories/Hull_Main.v
theories/Hull_Props.v
theories/Clip_Proofs.v
theories/Clip_Props.v
theories/IO_Model.v
theories/IO_Props.v
theories/Data_Model.v
theories/Data_Text.v
theories/Data_Proofs.v
theories/Data_CSV.v
theories/Data_Regex.v
theories/Data_Props.v
theories/Data_Infer.v
theories/Data_Float.v
theories/Data_Ops.v
theories/Json_Model.v
theories/Json_Spec.v
theories/Json_Props.v
theories/Json_Refuted.v
theories/Mat_Container.v
theories/Tri_Model.v
theories/Tri_Props.v
theories/Interp_Model.v
theories/Interp_Linear.v
theories/Interp_Poly.v
theories/Interp_Spline.v
theories/Interp_Bary.v
theories/Fourier_Model.v
theories/Fourier_Spec.v
theories/Fourier_FFT.v
theories/Fourier_Props.v
theories/Fourier_Real.v
theories/Fourier_DCT.v
theories/Stat_Model.v
theories/Stat_Spec.v
theories/Stat_Mean.v
theories/Stat_Order.v
theories/Stat_Corr.v
theories/Stat_Rank.v
theories/Stat_Props.v
theories/Opt_Model.v
theories/Opt_Spec.v
theories/Opt_Proofs.v
theories/Opt_Brent.v
theories/Opt_Props.v
theories/Quat_Model.v
theories/Quat_Spec.v
theories/Quat_Proofs.v
theories/Quat_Conv.v
theories/Quat_Euler.v
theories/Quat_Props.v
theories/Integ_Model.v
theories/Integ_Spec.v
theories/Integ_Trap.v
theories/Integ_Romberg.v
theories/Integ_Gauss.v
theories/Integ_Props.v
theories/ODE_Model.v
theories/ODE_Spec.v
theories/ODE_Solution.v
theories/ODE_RK.v
theories/ODE_Order.v
theories/ODE_Conseq.v
theories/ODE_Fixed.v
theories/ODE_Converge.v
theories/ODE_Verlet.v
theories/ODE_Props.v
theories/ODEA_Model.v
theories/ODEA_Spec.v
theories/ODEA_Step.v
theories/ODEA_Integ.v
theories/ODEA_Props.v
theories/AD_Model.v
theories/AD_Spec.v
theories/AD_Proofs.v
theories/AD_Props.v
theories/QR_Model.v
theories/QR_Math.v
theories/QR_Proofs.v
theories/QR_Props.v
theories/Iter_Model.v
theories/Iter_Spec.v
theories/Iter_Math.v
theories/Iter_Proofs.v
theories/Iter_Props.v
theories/Deriv_Model.v
theories/Deriv_Math.v
theories/Deriv_Spec.v
theories/Deriv_Proofs.v
theories/Deriv_Props.v
theories/Cheb_Model.v
theories/Cheb_Spec.v
theories/Cheb_Math.v
theories/Cheb_Proofs.v
theories/Cheb_Poly.v
theories/Cheb_Err.v
theories/Cheb_Props.v
theories/Cubic_Model.v
theories/Cubic_Spec.v
theories/Cubic_Proofs.v
theories/Cubic_Props.v
theories/Fit_Model.v
theories/Fit_Spec.v
theories/Fit_Proofs.v
theories/Fit_Props.v
theories/Eig_Model.v
theories/Eig_Spec.v
theories/Eig_Math.v
theories/Eig_Proofs.v
theories/Eig_Props.v
theories/Coord_Model.v
theories/Coord_Spec.v
theories/Coord_Proofs.v
theories/Coord_Props.v
theories/Ortho_Model.v
theories/Ortho_Spec.v
theories/Ortho_Math.v
theories/Ortho_Fam.v
theories/Ortho_Gauss.v
theories/Ortho_Cheb.v
theories/Ortho_Loops.v
theories/Ortho_Props.v
theories/Ortho_Props2.v
theories/Interp_Err.v
theories/Dist_Model.v
theories/Dist_Spec.v
theories/Dist_Props.v
theories/Dist_Normal.v
theories/Dist_More.v
