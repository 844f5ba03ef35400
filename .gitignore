*.vo
*.vok
*.vos
*.glob
*.aux
.lia.cache
.nia.cache
.nra.cache
.Makefile.d
rocq/Makefile
rocq/Makefile.conf
rocq/.CoqMakefile.d
