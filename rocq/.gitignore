*.vo
*.vok
*.vos
*.glob
*.aux
Makefile
Makefile.conf
.Makefile.d
*.d
.lia.cache
.nia.cache
*.glob
*.vos
*.vok
.Makefile.d
Makefile.conf
