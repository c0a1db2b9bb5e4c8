*.aux
*.d
*.glob
*.vo
*.vok
*.vos
.Makefile.d
.lia.cache
.lra.cache
.nia.cache
.nra.cache
Makefile
Makefile.conf
